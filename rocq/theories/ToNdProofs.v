(** The conversion into more dimensions keeps the mesh and follows its curves. *)
From Coq Require Import List Arith Lia Bool.
From Verif Require Import Base DVec DVecFacts Mesh Spec Rep Cycle MeshMore MeshSpec MeshProofs MeshFacts BuildSpec RefineSpec Traverse NetProofs PathProofs Alg Transform
  Import ImportProofs Flatten FlattenSpec FlattenProofs ToNd ToNdSpec.
Import ListNotations.
Set Implicit Arguments.
Unset Strict Implicit.
Local Arguments abs : simpl never.

Lemma nodup_parts {A} (a b : list A) : NoDup (a ++ b) -> NoDup a /\ NoDup b /\ forall x, In x a -> ~ In x b.
Proof.
  induction a as [|x a IH]; cbn; intros N; [split; [constructor|split; auto]|].
  inversion N as [|y l N0 N1 E]. destruct (IH N1) as (A0 & B & C). split; [|split; auto].
  - constructor; auto. intros I. apply N0, in_or_app; auto.
  - intros z [<-|I]; auto. intros K. apply N0, in_or_app; auto.
Qed.
Lemma fm_unique {A B} (f : A -> list B) l x y z : NoDup (flat_map f l) -> In x l -> In y l -> In z (f x) -> In z (f y) -> x = y.
Proof.
  induction l as [|a l IH]; intros N X Y Zx Zy; [destruct X|]. cbn in N. apply nodup_parts in N as (_ & N & DIS).
  destruct X as [->|X], Y as [->|Y]; auto.
  - exfalso. apply (DIS z Zx). apply in_flat_map; eauto.
  - exfalso. apply (DIS z Zy). apply in_flat_map; eauto.
Qed.
Lemma fm_part {A B} (f : A -> list B) l x : NoDup (flat_map f l) -> In x l -> NoDup (f x).
Proof.
  induction l as [|a l IH]; intros N X; [destruct X|]. cbn in N. apply nodup_parts in N as (N1 & N2 & _). destruct X as [->|X]; auto.
Qed.

Section Paths.
  Context {VP EP FP VP' EP' FP' : Type}.
  Lemma lt_rev (g : graph VP EP FP) es : forall vs, WF g -> leads_through g es vs -> leads_through g (rev (map (tw g) es)) (rev vs).
  Proof.
    induction es as [|e es IH]; intros vs W H.
    - destruct vs as [|v [|w vs]]; cbn in *; tauto.
    - destruct vs as [|v [|w vs]]; [destruct H|destruct H|]. destruct H as [(L & O & T) H].
      specialize (IH _ W H). cbn [map rev] in *.
      apply lt_snoc; [exact IH|]. split; [apply (wf_tw W); auto|]. split; [exact T|]. unfold target. rewrite (wf_twtw W); auto.
  Qed.
  Lemma lt_copy fv fh ff (g : graph VP EP FP) (h : graph VP' EP' FP') rv re rf es : copy_of fv fh ff g h rv re rf -> WF g ->
    forall vs, leads_through g es vs -> leads_through h (map re es) (map rv vs).
  Proof.
    intros C W. induction es as [|e es IH]; intros vs H.
    - destruct vs as [|v [|w vs]]; cbn in *; tauto.
    - destruct vs as [|v [|w vs]]; [destruct H|destruct H|]. destruct H as [(L & O & T) H].
      specialize (IH _ H). cbn [map] in *. split; [|exact IH]. split; [apply (rn_live (cp_e C)); auto|].
      unfold target in *. rewrite (cp_tw C), !(cp_og C) by (try apply (wf_tw W); auto). rewrite O, T. auto.
  Qed.
  Lemma renamed_inj live live' r x y : renamed live live' r -> live x = true -> live y = true -> r x = r y -> x = y.
  Proof.
    intros N X Y E. destruct (Nat.lt_trichotomy x y) as [H|[H|H]]; auto.
    - pose proof (rn_mono N X Y H). lia. - pose proof (rn_mono N Y X H). lia.
  Qed.
  Lemma nodup_map {A B} (f : A -> B) l : (forall x y, In x l -> In y l -> f x = f y -> x = y) -> NoDup l -> NoDup (map f l).
  Proof.
    intros I N. induction N as [|a l A0 N IH]; cbn; constructor.
    - intros H. apply in_map_iff in H as (y & E & H). apply A0. rewrite (I a y); auto; [left|right]; auto.
    - apply IH. intros x y X Y. apply I; right; auto.
  Qed.
  Lemma copy_loop fv fh ff (g : graph VP EP FP) (h : graph VP' EP' FP') rv re rf l : copy_of fv fh ff g h rv re rf ->
    loop g l -> loop h (map re l).
  Proof.
    intros C [L K]. split.
    - intros x I. apply in_map_iff in I as (y & <- & I). apply (rn_live (cp_e C)); auto.
    - destruct l as [|x t]; [destruct K|]. apply is_cycle_cons in K as (D & K & Z).
      cbn [map]. apply is_cycle_cons. split; [|split].
      + change (NoDup (map re (x :: t))). apply nodup_map; auto. intros a b A B. apply (renamed_inj (cp_e C)); auto.
      + clear -K C L. revert x K L. induction t as [|y t IH]; cbn [map chain]; auto. intros x [<- K] L. split.
        * apply (cp_nx C), L. left; auto.
        * apply IH; auto. intros z I. apply L. right; auto.
      + rewrite last_map. rewrite (cp_nx C) by apply L, last_in. congruence.
  Qed.
End Paths.

Section Spread.
  Variables (R : Type) (zero : R).
  Context {FP : Type}.
  Notation vec := (vec R).
  Notation curve := (curve R).
  Notation graph := (graph (pnu R) curve FP).
  Notation mesh := (mesh (pnu R) curve FP).
  Implicit Types (g : graph) (m : mesh).

  (** ** the divided mesh *)
  Section Divided.
    Variables (g g' : graph) (pts : nat -> list vec) (L : list nat) (es vs : nat -> list nat).
    Hypothesis W : WF g.
    Hypothesis W' : WF g'.
    Hypothesis IL : forall e, In e L <-> pts e <> [].
    Hypothesis LL : forall e, In e L -> lv g e = true.
    Hypothesis HL : forall e, lv g e = true -> exists t, loop g (e :: t).
    Hypothesis NT : forall e, In e L -> ~ In (tw g e) L.
    Hypothesis D : divided_all g g' (Linear R) L es vs (fun e => map (u_from_pos zero) (pts e)).

    Lemma live_up x : lv g x = true -> lv g' x = true.
    Proof. intros H. apply (proj2 (proj2 (da_e D))). auto. Qed.
    Lemma live_upv x : lvv g x = true -> lvv g' x = true.
    Proof. intros H. apply (proj2 (proj2 (da_v D))). auto. Qed.
    Lemma twin_up x : lv g x = true -> tw g' x = tw g x.
    Proof. intros H. apply (da_old_e D); auto. Qed.
    Lemma origin_up x : lv g x = true -> ~ In x L -> og g' x = og g x.
    Proof. intros H N. apply (da_old_e D); auto. Qed.
    Lemma in_dec_L x : {In x L} + {~ In x L}.
    Proof. apply in_dec, Nat.eq_dec. Qed.

    (** the vertices inside the path that replaces [x] *)
    Definition on_way (x : nat) : list nat := (if pts x then [] else vs x) ++ rev (if pts (tw g x) then [] else vs (tw g x)).
    Lemma on_own x : In x L -> on_way x = vs x.
    Proof.
      intros I. unfold on_way. pose proof (proj1 (IL x) I). pose proof (NT I) as N. rewrite IL in N.
      destruct (pts x); [congruence|]. destruct (pts (tw g x)); [cbn; apply app_nil_r|]. exfalso. apply N. discriminate.
    Qed.
    Lemma on_twin x : In (tw g x) L -> lv g x = true -> on_way x = rev (vs (tw g x)).
    Proof.
      intros I Lx. unfold on_way. pose proof (proj1 (IL _) I). pose proof (NT I) as N. rewrite IL, (wf_twtw W) in N by auto.
      destruct (pts (tw g x)); [congruence|]. destruct (pts x); [auto|]. exfalso. apply N. discriminate.
    Qed.
    Lemma on_none x : ~ In x L -> ~ In (tw g x) L -> on_way x = [].
    Proof.
      intros N M. rewrite IL in N, M. unfold on_way.
      destruct (pts x); [|exfalso; apply N; discriminate]. destruct (pts (tw g x)); [auto|exfalso; apply M; discriminate].
    Qed.
    Notation pieces := (pieces g g' es).
    Lemma pieces_own x : In x L -> pieces x = es x ++ [x].
    Proof. intros I. unfold FlattenSpec.pieces. rewrite (da_none D (NT I)). reflexivity. Qed.
    Lemma pieces_twin x : In (tw g x) L -> lv g x = true -> pieces x = x :: rev (map (tw g') (es (tw g x))).
    Proof.
      intros I Lx. unfold FlattenSpec.pieces. rewrite (da_none D (e := x)); [reflexivity|].
      intros J. apply (NT J I).
    Qed.
    Lemma pieces_none x : ~ In x L -> ~ In (tw g x) L -> pieces x = [x].
    Proof. intros N M. unfold FlattenSpec.pieces. rewrite (da_none D N), (da_none D M). reflexivity. Qed.

    Lemma pieces_path x : lv g x = true -> leads_through g' (pieces x) (og g x :: on_way x ++ [target g x]).
    Proof.
      intros Lx. destruct (in_dec_L x) as [I|N]; [|destruct (in_dec_L (tw g x)) as [I|M]].
      - rewrite pieces_own, on_own by auto. apply (da_path D); auto.
      - rewrite pieces_twin, on_twin by auto. pose proof (lt_rev W' (da_path D I)) as H.
        rewrite map_app, rev_app_distr in H. cbn [map rev app] in H.
        rewrite twin_up in H by (apply (wf_tw W); auto). rewrite (wf_twtw W) in H by auto.
        rewrite rev_app_distr in H. cbn [rev app] in H. unfold target in H. rewrite (wf_twtw W) in H by auto. exact H.
      - rewrite pieces_none, on_none by auto. cbn. split; auto. split; [apply live_up; auto|].
        split; [apply origin_up; auto|]. unfold target. rewrite twin_up by auto. apply origin_up; auto. apply (wf_tw W); auto.
    Qed.
    Lemma pieces_twins x : lv g x = true -> pieces (tw g x) = rev (map (tw g') (pieces x)).
    Proof.
      intros Lx. unfold FlattenSpec.pieces. rewrite (wf_twtw W) by auto.
      rewrite map_app, rev_app_distr. cbn [map rev]. rewrite map_rev, rev_involutive, twin_up, <- app_assoc by auto. cbn [app].
      assert (E : map (tw g') (map (tw g') (es (tw g x))) = es (tw g x)); [|rewrite E; reflexivity].
      destruct (in_dec_L (tw g x)) as [I|N]; [|rewrite (da_none D N); auto].
      rewrite map_map. rewrite <- (map_id (es (tw g x))) at 2. apply map_ext_in. intros z Z.
      apply (wf_twtw W'). apply (lt_live (da_path D I)). apply in_or_app; auto.
    Qed.
    Lemma pieces_in x z : lv g x = true -> In z (pieces x) ->
      z = x \/ (In x L /\ In z (es x)) \/ (In (tw g x) L /\ In z (map (tw g') (es (tw g x)))).
    Proof.
      intros Lx I. unfold FlattenSpec.pieces in I. apply in_app_or in I as [I|[I|I]].
      - right. left. split; auto. destruct (in_dec_L x) as [J|J]; auto. rewrite (da_none D J) in I. destruct I.
      - auto.
      - right. right. apply in_rev in I. split; auto. destruct (in_dec_L (tw g x)) as [J|J]; auto. rewrite (da_none D J) in I. destruct I.
    Qed.
    Lemma pieces_live x z : lv g x = true -> In z (pieces x) -> lv g' z = true.
    Proof. intros Lx I. eapply lt_live; [apply pieces_path; exact Lx|exact I]. Qed.
    Lemma pieces_face x z : lv g x = true -> In z (pieces x) -> fc g' z = fc g x.
    Proof.
      intros Lx I. destruct (pieces_in Lx I) as [->|[[I1 I2]|[I1 I2]]].
      - apply (da_old_e D); auto.
      - apply (da_face D I1 I2).
      - apply in_map_iff in I2 as (y & <- & I2). rewrite (proj2 (da_face D I1 I2)). rewrite (wf_twtw W); auto.
    Qed.
    (** where a new half-edge comes from *)
    Lemma new_dead e z : In e L -> In z (es e ++ map (tw g') (es e)) -> lv g z = false.
    Proof.
      intros I Z. apply (proj1 (proj2 (da_e D))). apply in_flat_map. eauto.
    Qed.
    Lemma pieces_apart x y z : lv g x = true -> lv g y = true -> In z (pieces x) -> In z (pieces y) -> x = y.
    Proof.
      intros Lx Ly Ix Iy. pose proof (proj1 (da_e D)) as ND.
      assert (DJ : forall e, In e L -> forall a, In a (es e) -> ~ In a (map (tw g') (es e))).
      { intros e I a A B. pose proof (fm_part ND I) as N. cbn beta in N. apply nodup_parts in N as (_ & _ & N). exact (N a A B). }
      destruct (pieces_in Lx Ix) as [Ex|[[X1 X2]|[X1 X2]]], (pieces_in Ly Iy) as [Ey|[[Y1 Y2]|[Y1 Y2]]]; try congruence.
      - subst z. exfalso. assert (lv g x = false) by (eapply new_dead; [exact Y1|apply in_or_app; auto]). congruence.
      - subst z. exfalso. assert (lv g x = false) by (eapply new_dead; [exact Y1|apply in_or_app; auto]). congruence.
      - subst z. exfalso. assert (lv g y = false) by (eapply new_dead; [exact X1|apply in_or_app; auto]). congruence.
      - apply (fm_unique (z := z) ND X1 Y1); apply in_or_app; auto.
      - exfalso. assert (E : x = tw g y) by (apply (fm_unique (z := z) ND X1 Y1); apply in_or_app; auto).
        rewrite <- E in Y2. exact (DJ x X1 z X2 Y2).
      - subst z. exfalso. assert (lv g y = false) by (eapply new_dead; [exact X1|apply in_or_app; auto]). congruence.
      - exfalso. assert (E : y = tw g x) by (apply (fm_unique (z := z) ND Y1 X1); apply in_or_app; auto).
        rewrite <- E in X2. exact (DJ y Y1 z Y2 X2).
      - assert (E : tw g x = tw g y) by (apply (fm_unique (z := z) ND X1 Y1); apply in_or_app; auto).
        rewrite <- (wf_twtw W x Lx), <- (wf_twtw W y Ly), E. auto.
    Qed.
    Lemma pieces_all z : lv g' z = true -> exists x, lv g x = true /\ In z (pieces x).
    Proof.
      intros Lz. apply (proj2 (proj2 (da_e D))) in Lz as [Lz|I].
      - exists z. split; auto. unfold FlattenSpec.pieces. apply in_or_app. right. left. auto.
      - apply in_flat_map in I as (e & I & J). apply in_app_or in J as [J|J].
        + exists e. split; auto. unfold FlattenSpec.pieces. apply in_or_app. auto.
        + exists (tw g e). split; [apply (wf_tw W); auto|]. unfold FlattenSpec.pieces. rewrite (wf_twtw W) by auto.
          apply in_or_app. right. right. apply in_rev. rewrite rev_involutive. auto.
    Qed.
    Lemma way_all v : lvv g' v = true -> lvv g v = true \/ exists e, lv g e = true /\ In v (on_way e).
    Proof.
      intros Lv. apply (proj2 (proj2 (da_v D))) in Lv as [Lv|I]; auto.
      apply in_flat_map in I as (e & I & J). right. exists e. split; auto. rewrite on_own; auto.
    Qed.
    Lemma way_new e v : lv g e = true -> In v (on_way e) -> lvv g v = false.
    Proof.
      intros Le I. apply (proj1 (proj2 (da_v D))). apply in_flat_map.
      destruct (in_dec_L e) as [J|N]; [|destruct (in_dec_L (tw g e)) as [J|M]].
      - rewrite on_own in I by auto. eauto.
      - rewrite on_twin in I by auto. apply in_rev in I. eauto.
      - rewrite on_none in I by auto. destruct I.
    Qed.
    Lemma way_pos e : lv g e = true -> map (vp g') (on_way e) = map (fun q => Some (u_from_pos zero q)) (pts e ++ rev (pts (tw g e))).
    Proof.
      intros Le. destruct (in_dec_L e) as [J|N]; [|destruct (in_dec_L (tw g e)) as [J|M]].
      - rewrite on_own by auto. rewrite (da_pos D J), map_map. pose proof (NT J) as N. rewrite IL in N.
        destruct (pts (tw g e)); [cbn; rewrite app_nil_r; auto|exfalso; apply N; discriminate].
      - rewrite on_twin by auto. rewrite map_rev, (da_pos D J), map_map, <- map_rev. rewrite IL in N.
        destruct (pts e); [auto|exfalso; apply N; discriminate].
      - rewrite on_none by auto. rewrite IL in N, M.
        destruct (pts e); [|exfalso; apply N; discriminate]. destruct (pts (tw g e)); [auto|exfalso; apply M; discriminate].
    Qed.
    Lemma way_live e v : lv g e = true -> In v (on_way e) -> lvv g' v = true.
    Proof.
      intros Le I. apply (proj2 (proj2 (da_v D))). right. apply in_flat_map.
      destruct (in_dec_L e) as [J|N]; [|destruct (in_dec_L (tw g e)) as [J|M]].
      - rewrite on_own in I by auto. eauto.
      - rewrite on_twin in I by auto. apply in_rev in I. eauto.
      - rewrite on_none in I by auto. destruct I.
    Qed.
    (** the divided mesh can be imported *)
    Lemma divided_importable : importable g -> importable g'.
    Proof.
      intros [IV IE]. split.
      - assert (OUT : forall e, lv g' e = true -> ve g' (og g' e) <> None).
        { intros e Le E. destruct (wf_wheel W' _ Le) as (e0 & V & _). congruence. }
        intros v Lv. destruct (way_all Lv) as [Lo|(e & Le & I)].
        + destruct (ve g v) as [e|] eqn:E; [|exfalso; exact (IV v Lo E)]. destruct (wf_ve W _ Lo E) as [Le <-].
          pose proof (pieces_path Le) as P. destruct (pieces e) as [|x t] eqn:PE.
          { exfalso. apply lt_length in P. cbn in P. rewrite app_length in P. cbn in P. lia. }
          destruct (on_way e ++ [target g e]) as [|w ws] eqn:Q; [destruct (on_way e); discriminate|].
          destruct P as [(Lx & Ox & _) _]. rewrite <- Ox. auto.
        + pose proof (pieces_path Le) as P. apply in_split in I as (a & b & I). rewrite I in P.
          assert (K : exists x, lv g' x = true /\ og g' x = v).
          { clear -P.
            rewrite <- app_assoc in P. cbn [app] in P. revert P. generalize (pieces e). generalize (og g e). 
            induction a as [|u a IH]; intros o l P; cbn [app] in P.
            - destruct l as [|x l]; [destruct P|]. destruct P as [_ P]. destruct l as [|y l]; [destruct b; destruct P|].
              destruct b; destruct P as [(A & B & _) _]; eauto.
            - destruct l as [|x l]; [destruct P|]. destruct P as [_ P]. eapply IH; exact P. }
          destruct K as (x & Lx & <-). auto.
      - intros z Lz E. destruct (pieces_all Lz) as (x & Lx & Z).
        destruct (HL Lx) as (t & LO). pose proof (proj2 LO) as C.
        pose proof (da_loops D LO) as [_ C'].
        assert (T2 : t <> []). { intros ->. apply (IE x Lx). apply is_cycle_cons in C as (_ & _ & C). exact C. }
        assert (Z' : In z (flat_map pieces (x :: t))) by (apply in_flat_map; exists x; split; [left|]; auto).
        (* a cycle with a fixed point has one element *)
        assert (ONE : forall l, is_cycle (nx g') l -> In z l -> l = [z]).
        { clear -E. intros l C I. destruct l as [|a l]; [destruct C|]. apply is_cycle_cons in C as (N & C & Q).
          assert (A : forall l a, chain (nx g') a l -> NoDup (a :: l) -> In z (a :: l) -> nx g' (last l a) <> z -> False).
          { clear -E. induction l as [|b l IH]; intros a C N I Q.
            - destruct I as [->|[]]. cbn in Q. auto.
            - destruct C as [C0 C]. destruct I as [->|I].
              + rewrite E in C0. subst b. inversion N as [|? ? N0 _]. apply N0. left; auto.
              + apply (IH b C); auto. inversion N; auto. intros K. apply Q. rewrite last_cons. exact K. }
          destruct (Nat.eq_dec (nx g' (last l a)) z) as [K|K]; [|exfalso; eapply A; eauto].
          rewrite Q in K. subst z. destruct l as [|b l]; auto. destruct C as [C0 _]. exfalso.
          inversion N as [|? ? N0 _]. apply N0. left. congruence. }
        pose proof (ONE _ C' Z') as K. destruct t as [|y t]; [auto|].
        assert (LN : length (flat_map pieces (x :: y :: t)) = 1) by (rewrite K; auto).
        cbn [flat_map] in LN. rewrite !app_length in LN. unfold FlattenSpec.pieces in LN. rewrite !app_length in LN. cbn [length] in LN. lia.
    Qed.
  End Divided.

  (** ** the copy *)
  Variable flat : curve -> vec -> vec -> res (list vec).
  Lemma flat_from_xy q i : from_xy zero (q 0) (q 1) i = flat_point zero q i.
  Proof. destruct i as [|[|i]]; reflexivity. Qed.
  Theorem to_nd_ok c m pts : wf m -> importable (abs m) ->
    (forall e, curved (abs m) e -> inner flat (abs m) e (pts e)) -> (forall e, ~ curved (abs m) e -> pts e = []) ->
    (forall e, pts e <> [] -> two_edges (abs m) e /\ ~ curved (abs m) (tw (abs m) e)) ->
    fits c m (2 * list_sum (map (fun e => length (pts e)) (edge_ids m))) (list_sum (map (fun e => length (pts e)) (edge_ids m))) 0 ->
    exists (m' : Mesh.mesh (pnu R) unit unit) rv rf pc ws, to_nd zero flat c m = Ok m' /\ wf m' /\ spread_out zero (abs m) (abs m') pts rv rf pc ws.
  Proof.
    intros Wm IM IN NC TE F. destruct (wf_abs Wm) as [Rm W].
    destruct (@flatten_ok R zero FP flat c m pts 0 0 0 Wm IN NC TE) as (m1 & L & es & vs & E & W1 & F1 & IL & D).
    { rewrite !Nat.add_0_r. exact F. }
    destruct (wf_abs W1) as [R1 W1'].
    assert (LL : forall e, In e L -> lv (abs m) e = true).
    { intros e I. apply IL in I. destruct (lv (abs m) e) eqn:Le; auto. exfalso. apply I, NC. intros [Q _]. congruence. }
    assert (NT : forall e, In e L -> ~ In (tw (abs m) e) L).
    { intros e I J. apply IL in I, J. apply J, NC, TE, I. }
    assert (HL : forall e, lv (abs m) e = true -> exists t, loop (abs m) (e :: t)).
    { intros e Le. destruct (face_traversal Wm Le) as (t & H & _). eauto. }
    pose proof (divided_importable W W1' IL LL HL NT D IM) as IM1.
    destruct F1 as ((_ & FE) & (_ & FV) & (_ & FF)).
    destruct W1 as (OE & OV & OF & WG). pose proof (conj OE (conj OV (conj OF WG))) as W1.
    pose proof (len_iter OE) as NE. pose proof (len_iter OV) as NV. pose proof (len_iter OF) as NF. cbn [length] in NE, NV, NF.
    destruct (proj1 (import_both (VP' := pnu R) (EP' := unit) (FP' := unit) (nd_vertex zero) (fun _ => tt) (fun _ => tt) (c := c) (m := m1) W1
      ltac:(lia) ltac:(lia) ltac:(lia)) IM1) as (m2 & rv & re & rf & E2 & W2 & C).
    exists m2, rv, rf, (fun x => map re (pieces (abs m) (abs m1) es x)), (fun x => map rv (on_way (abs m) pts vs x)).
    split; [unfold to_nd; rewrite E; exact E2|]. split; [exact W2|].
    assert (UV : forall v, lvv (abs m) v = true -> lvv (abs m1) v = true) by (intros v; apply (live_upv D)).
    assert (FC : forall f, lvf (abs m1) f = lvf (abs m) f) by (intros f; apply (da_f D)).
    split.
    - intros v Lv. split; [apply (rn_live (cp_v C)); auto|]. destruct (r_vertex_live Rm v Lv) as (x & _ & _ & X).
      exists (u_pos (v_pay x)), (from_xy zero (u_pos (v_pay x) 0) (u_pos (v_pay x) 1)). unfold place.
      rewrite (cp_vp C), (da_old_v D), X by auto. split; [reflexivity|]. split; [reflexivity|]. intros i. apply flat_from_xy.
    - intros v w Lv Lw. apply (renamed_inj (cp_v C)); auto.
    - intros f Lf. apply (rn_live (cp_f C)). rewrite FC. auto.
    - intros f k Lf Lk. apply (renamed_inj (cp_f C)); rewrite FC; auto.
    - intros e Le. pose proof (lt_copy C W1' (pieces_path W W1' IL NT D Le)) as H. cbn [map] in H. rewrite map_app in H. exact H.
    - intros e Le. pose proof (way_pos W IL NT D Le) as H.
      assert (LV : forall v, In v (on_way (abs m) pts vs e) -> lvv (abs m1) v = true) by (intros v; apply (way_live W IL NT D Le)).
      assert (G : forall l (k : list (nat -> R)), map (vp (abs m1)) l = map (fun q => Some (u_from_pos zero q)) k ->
        (forall v, In v l -> lvv (abs m1) v = true) ->
        Forall2 (fun v q => exists q', place (abs m2) v = Some q' /\ forall i, q' i = flat_point zero q i) (map rv l) k).
      { clear -C. induction l as [|v l IH]; intros [|q k] H LV; cbn [map] in *; try discriminate H; constructor.
        - pose proof (f_equal (hd None) H) as H0. cbn [hd] in H0. exists (from_xy zero (q 0) (q 1)). unfold place. rewrite (cp_vp C), H0 by (apply LV; left; auto).
          split; [reflexivity|]. intros i. apply flat_from_xy.
        - apply IH; [exact (f_equal (@tl _) H)|]. intros x I. apply LV. right; auto. }
      exact (G _ _ H LV).
    - intros e v Le Lv I. apply in_map_iff in I as (w & Q & I).
      assert (w = v) as ->.
      { apply (renamed_inj (cp_v C)); auto. apply (way_live W IL NT D Le I). }
      pose proof (way_new W IL NT D Le I). congruence.
    - intros e Le. rewrite (pieces_twins W W1' D Le), map_rev, !map_map. f_equal. apply map_ext_in. intros z Z. symmetry. apply (cp_tw C).
      apply (pieces_live W W1' IL NT D Le Z).
    - intros e x Le I. apply in_map_iff in I as (z & <- & Z). rewrite (cp_fc C) by (apply (pieces_live W W1' IL NT D Le Z)).
      rewrite (pieces_face W D Le Z). reflexivity.
    - intros l LO. pose proof (copy_loop C (da_loops D LO)) as H.
      assert (Q : map re (flat_map (pieces (abs m) (abs m1) es) l) = flat_map (fun x => map re (pieces (abs m) (abs m1) es x)) l); [|rewrite <- Q; exact H].
      clear. induction l as [|a l IH]; cbn; [auto|]. rewrite map_app, IH. auto.
    - intros e k x Le Lk I J. apply in_map_iff in I as (y & <- & I). apply in_map_iff in J as (z & Q & J).
      assert (z = y) as ->.
      { apply (renamed_inj (cp_e C)); auto; [apply (pieces_live W W1' IL NT D Lk J)|apply (pieces_live W W1' IL NT D Le I)]. }
      apply (pieces_apart W D Le Lk I J).
    - intros x Lx. destruct (rn_onto (cp_e C) Lx) as (z & Lz & <-). destruct (pieces_all W LL D Lz) as (e & Le & I).
      exists e. split; auto. apply in_map. exact I.
    - intros v Lv. destruct (rn_onto (cp_v C) Lv) as (z & Lz & <-). destruct (way_all IL LL NT D Lz) as [Lo|(e & Le & I)]; [left; eauto|].
      right. exists e. split; auto. apply in_map. exact I.
    - intros f Lf. destruct (rn_onto (cp_f C) Lf) as (z & Lz & <-). rewrite FC in Lz. eauto.
    - intros v p P Lv i. destruct (rn_onto (cp_v C) Lv) as (z & Lz & <-). rewrite (cp_vp C) in P by auto.
      destruct (vp (abs m1) z) as [q|]; [|discriminate P]. cbn in P. injection P as <-. split; reflexivity.
  Qed.
End Spread.
