(** Where the points of drawn outlines lie, and where text is drawn. *)
From Coq Require Import List Arith Lia Bool QArith Lqa.
From Verif Require Import Base DVec DVecFacts Mesh Spec Rep MeshSpec MeshProofs MeshMore MeshTotal NetProofs BuildSpec
  BuildStep PathProofs PathBSpec SvgProofs Alg Transform TransProofs Glyph GlyphSpec GlyphProofs.
Import ListNotations.
Set Implicit Arguments.
Unset Strict Implicit.
Local Open Scope nat_scope.

Local Arguments abs : simpl never.

Section Points.
  Context {FP : Type}.
  Notation vec := (vec Q).
  Notation graph := (graph (pnu Q) (curve Q) FP).
  Notation mesh := (mesh (pnu Q) (curve Q) FP).
  Notation q_pt := (point_at 1%Q Qplus Qmult Qminus).
  Notation q_epoint := (edge_point 1%Q Qplus Qmult Qminus).
  Notation q_place := (place 0%Q Qplus Qmult).
  Implicit Types (g : graph) (m : mesh).

  Lemma lt_nth g es : forall vs k e, leads_through g es vs -> nth_error es k = Some e ->
    exists v w, nth_error vs k = Some v /\ nth_error vs (S k) = Some w /\ leads g e v w.
  Proof.
    induction es as [|x es IH]; intros vs k e H E; [destruct k; discriminate|].
    destruct vs as [|v vs]; [destruct H|]. destruct vs as [|w vs]; [destruct H|]. destruct H as [H1 H2].
    destruct k; [injection E as <-; exists v, w; auto|]. destruct (IH _ _ _ H2 E) as (v' & w' & A). exists v', w'. exact A.
  Qed.

  Lemma edge_point_at m e t k a b : wf m -> lv (abs m) e = true -> ep (abs m) e = Some k ->
    vp (abs m) (og (abs m) e) = Some a -> vp (abs m) (target (abs m) e) = Some b ->
    q_epoint m e t = Ok (q_pt k (u_pos a) (u_pos b) t).
  Proof.
    intros Wm L K A B. destruct (wf_abs Wm) as [R W].
    destruct (r_edge_live R _ L) as (x & X & _ & _ & _ & _ & _ & P). rewrite K in P. injection P as P.
    assert (LT := wf_og W _ (wf_tw W _ L)).
    destruct (r_vertex_live R _ (wf_og W _ L)) as (y & Y & _ & Y2). rewrite A in Y2. injection Y2 as Y2.
    destruct (r_vertex_live R _ LT) as (z & Z & _ & Z2). unfold target in B. rewrite B in Z2. injection Z2 as Z2.
    unfold edge_point, edge_ends. rewrite X. cbn [bind].
    rewrite (r_origin_id R), L. cbn [bind]. rewrite Y. cbn [bind]. rewrite (r_target R), L, (wf_nx W _ L). cbn [andb bind].
    rewrite (wf_ognx W _ L), Z. cbn [bind]. rewrite <- P, <- Y2, <- Z2. reflexivity.
  Qed.

  Lemma moved_point s x k (a b : vec) t i :
    (q_pt (moved (q_place s x) k) (q_place s x a) (q_place s x b) t i == q_place s x (q_pt k a b t) i)%Q.
  Proof. destruct k as [|c|c d]; unfold place, lerp; cbn; unfold lerp; destruct i; ring. Qed.

  (** the same curve from the other end *)
  Lemma turned_point k (a b : vec) t i : (forall c d, k <> Cubic c d) ->
    (q_pt k b a t i == q_pt k a b (1 - t) i)%Q.
  Proof.
    intros N. destruct k as [|c|c d]; [| |destruct (N c d); auto]; cbn; unfold lerp; ring.
  Qed.
  Lemma turned_cubic (a b c d : vec) t i :
    (q_pt (Cubic c d) b a t i - q_pt (Cubic c d) a b (1 - t) i == (1 + 1 + 1) * t * (1 - t) * (1 - t - t) * (c i - d i))%Q.
  Proof. cbn. ring. Qed.

  Lemma pt_ends k (a b a' b' : vec) t i : (a i == a' i)%Q -> (b i == b' i)%Q -> (q_pt k a b t i == q_pt k a' b' t i)%Q.
  Proof. intros A B. destruct k as [|c|c d]; cbn; unfold lerp; rewrite A, B; reflexivity. Qed.

  Lemma linked_nth (l : list (outline Q)) : forall k o o', linked l -> nth_error l k = Some o -> nth_error l (S k) = Some o' ->
    o_start o' = o_stop o.
  Proof.
    induction l as [|x l IH]; intros k o o' H A B; [destruct k; discriminate|].
    destruct l as [|y l]; [destruct k; [discriminate|destruct k; discriminate]|]. destruct H as [H1 H2].
    destruct k; [injection A as <-; injection B as <-; auto|]. eapply IH; eauto.
  Qed.

  Lemma nth_map_inv {A B} (f : A -> B) l k b : nth_error (map f l) k = Some b -> exists a, nth_error l k = Some a /\ f a = b.
  Proof.
    revert k. induction l as [|x l IH]; intros k H; [destruct k; discriminate|].
    destruct k; [cbn in H; injection H as <-; exists x; auto|apply IH; auto].
  Qed.

  Section Drawn.
    Variables (m : mesh) (dF : FP) (s x : Q) (l : list (outline Q)) (z : outline Q) (es vs : list nat) (f : nat).
    Hypothesis Wm : wf m.
    Hypothesis O : outlined 0%Q (abs m) dF (q_place s x) l z es vs f.
    Hypothesis LK : linked (l ++ [z]).
    Hypothesis NL : l <> [].

    Lemma len_vs : length vs = S (length l).
    Proof. pose proof (f_equal (@length _) (ol_pos O)) as Q. rewrite !map_length, app_length in Q. cbn in Q. lia. Qed.
    Lemma len_es : length es = S (length l).
    Proof.
      pose proof (lt_length (ol_leads O)) as Q. rewrite app_length, firstn_length, len_vs in Q. lia.
    Qed.
    Lemma vs_at k v o : nth_error vs k = Some v -> nth_error (l ++ [z]) k = Some o ->
      vp (abs m) v = Some (u_from_pos 0%Q (q_place s x (o_start o))).
    Proof.
      intros A B. pose proof (f_equal (fun L => nth_error L k) (ol_pos O)) as Q. cbv beta in Q.
      rewrite (map_nth_error _ _ _ A), (map_nth_error _ _ _ B) in Q. injection Q as Q. exact Q.
    Qed.

    Lemma along_point k o : nth_error l k = Some o ->
      exists e, nth_error es k = Some e /\
        forall t, exists p, q_epoint m e t = Ok p /\ forall i, (p i == q_place s x (o_point o t) i)%Q.
    Proof.
      intros K. assert (LT : k < length l) by (apply nth_error_Some; congruence).
      destruct (nth_error es k) as [e|] eqn:E; [|apply nth_error_None in E; rewrite len_es in E; lia].
      exists e. split; auto. intros t.
      destruct (lt_nth (ol_leads O) E) as (v & w & V & Wk & (Le & Og & Tg)).
      pose proof len_vs as LV.
      rewrite nth_error_app1 in V by lia. rewrite nth_error_app1 in Wk by lia.
      assert (K' : nth_error (l ++ [z]) k = Some o) by (rewrite nth_error_app1; auto).
      destruct (nth_error (l ++ [z]) (S k)) as [o'|] eqn:K2.
      2:{ apply nth_error_None in K2. rewrite app_length in K2. cbn in K2. lia. }
      assert (PE : ep (abs m) e = Some (moved (q_place s x) (o_curve o))).
      { pose proof (f_equal (fun L => nth_error L k) (ol_there O)) as Q. cbv beta in Q.
        rewrite (map_nth_error _ _ _ E) in Q. rewrite map_app in Q.
        rewrite nth_error_app1 in Q by (rewrite !map_length; auto). rewrite map_map in Q.
        rewrite (map_nth_error _ _ _ K) in Q. injection Q as Q. exact Q. }
      eexists. split.
      - eapply edge_point_at; eauto; [rewrite Og; eapply vs_at; eauto|rewrite Tg; eapply vs_at; eauto].
      - intros i. cbn [u_pos u_from_pos]. rewrite (linked_nth LK K' K2). apply moved_point.
    Qed.

    Variable D : nat.
    Hypothesis CL : forall i, i < D -> (o_stop z i == o_start (hd z l) i)%Q.
    Lemma back_point : exists e, nth_error es (length l) = Some e /\
      forall t, exists p, q_epoint m (tw (abs m) e) t = Ok p /\
        forall i, i < D -> (p i == q_place s x (q_pt (o_curve z) (o_stop z) (o_start z) t) i)%Q.
    Proof.
      destruct (nth_error es (length l)) as [e|] eqn:E; [|apply nth_error_None in E; rewrite len_es in E; lia].
      exists e. split; auto. intros t. pose proof len_vs as LV.
      destruct (lt_nth (ol_leads O) E) as (v & w & V & Wk & (Le & Og & Tg)).
      pose proof (wfW Wm) as W.
      rewrite nth_error_app1 in V by lia. rewrite nth_error_app2 in Wk by lia. rewrite LV, Nat.sub_diag in Wk.
      assert (WV : nth_error vs 0 = Some w) by (destruct vs; [discriminate|exact Wk]).
      assert (KZ : nth_error (l ++ [z]) (length l) = Some z) by (rewrite nth_error_app2, Nat.sub_diag; auto).
      assert (K0 : nth_error (l ++ [z]) 0 = Some (hd z l)) by (destruct l; [congruence|auto]).
      assert (PE : ep (abs m) (tw (abs m) e) = Some (moved (q_place s x) (o_curve z))).
      { pose proof (f_equal (fun L => nth_error L (length l)) (ol_against O)) as Q. cbv beta in Q.
        rewrite (map_nth_error _ _ _ (map_nth_error _ _ _ E)) in Q. rewrite map_app in Q.
        rewrite nth_error_app2 in Q by (rewrite !map_length, repeat_length; auto).
        rewrite map_length, repeat_length, Nat.sub_diag in Q. cbn in Q. injection Q as Q. exact Q. }
      eexists. split.
      - eapply edge_point_at; [exact Wm|apply (wf_tw W); auto|exact PE|..].
        + change (og (abs m) (tw (abs m) e)) with (target (abs m) e). rewrite Tg. eapply vs_at; eauto.
        + unfold target. rewrite (wf_twtw W _ Le), Og. eapply vs_at; eauto.
      - intros i ID. cbn [u_pos u_from_pos]. rewrite moved_point. unfold place.
        rewrite (@pt_ends _ (o_start (hd z l)) (o_start z) (o_stop z) (o_start z) t i); [reflexivity| |reflexivity].
        symmetry. apply CL; auto.
    Qed.
  End Drawn.

  Lemma outline_points D m dF s x l z es vs f (same : vec -> vec -> bool) : wf m -> contour same (l ++ [z]) ->
    (forall a b, same a b = true -> forall i, i < D -> (a i == b i)%Q) ->
    outlined 0%Q (abs m) dF (q_place s x) l z es vs f ->
    (forall k o, nth_error l k = Some o -> exists e, nth_error es k = Some e /\
       forall t, exists p, q_epoint m e t = Ok p /\ forall i, (p i == q_place s x (o_point o t) i)%Q) /\
    exists e, nth_error es (length l) = Some e /\
      (((forall c d, o_curve z <> Cubic c d) \/ (exists c d, o_curve z = Cubic c d /\ forall i, i < D -> (c i == d i)%Q)) ->
       forall t, exists p, q_epoint m (tw (abs m) e) t = Ok p /\
         forall i, i < D -> (p i == q_place s x (o_point z (1 - t)) i)%Q) /\
      forall c d i, i < D -> o_curve z = Cubic c d -> ~ (s == 0)%Q -> ~ (c i == d i)%Q ->
       exists t p, q_epoint m (tw (abs m) e) t = Ok p /\ ~ (p i == q_place s x (o_point z (1 - t)) i)%Q.
  Proof.
    intros Wm (y & mid & z' & EQ & NM & LK & _ & SZ) SS O.
    assert (E2 : l = y :: mid /\ z = z') by (apply app_inj_tail; rewrite EQ; reflexivity). destruct E2 as [-> <-].
    split; [intros k o K; eapply along_point; eauto|].
    assert (CL : forall i, i < D -> (o_stop z i == o_start (hd z (y :: mid)) i)%Q) by (intros i ID; cbn [hd]; symmetry; apply SS; auto).
    assert (NL : y :: mid <> []) by discriminate.
    destruct (back_point Wm O LK NL CL) as (e & E & B). exists e. split; auto. split.
    - intros K t. destruct (B t) as (p & P1 & P2). exists p. split; auto. intros i ID. rewrite P2 by auto.
      unfold place. unfold o_point. destruct K as [K|(c & d & K & CD)].
      + rewrite (turned_point (o_start z) (o_stop z) t i K). reflexivity.
      + rewrite K. pose proof (turned_cubic (o_start z) (o_stop z) c d t i) as TC. rewrite (CD i ID) in TC.
        assert (Z : (q_pt (Cubic c d) (o_stop z) (o_start z) t i == q_pt (Cubic c d) (o_start z) (o_stop z) (1 - t) i)%Q) by lra.
        rewrite Z. reflexivity.
    - intros c d i ID K S0 CD. destruct (B (1 # 4)%Q) as (p & P1 & P2). exists (1 # 4)%Q, p. split; auto. rewrite P2 by auto.
      unfold place, o_point. rewrite K. intros A.
      pose proof (turned_cubic (o_start z) (o_stop z) c d (1 # 4)%Q i) as TC.
      set (u := q_pt (Cubic c d) (o_stop z) (o_start z) (1 # 4)%Q i) in *.
      set (w := q_pt (Cubic c d) (o_start z) (o_stop z) (1 - (1 # 4))%Q i) in *.
      assert (U : (u * s == w * s)%Q) by lra. apply Qmult_inj_r in U; auto. apply CD.
      assert (T : ((1 + 1 + 1) * (1 # 4) * (1 - (1 # 4)) * (1 - (1 # 4) - (1 # 4)) == 9 # 32)%Q) by reflexivity.
      rewrite T in TC. lra.
  Qed.
End Points.
