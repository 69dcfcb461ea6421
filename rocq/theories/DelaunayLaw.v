(** The Delaunay triangulator is lawful: flips keep the oriented boundary of the buffer. *)
From Coq Require Import List Arith Bool Lia ZArith Permutation.
From Verif Require Import Base DVecFacts Mesh Tess Buffer Monotone TriSpec TriFacts BufferSpec BufferProofs MonoSpec TessProofs.
From Verif Require Import LinearProofs MonoLaw MonoLawProofs DelaunayProofs.
Import ListNotations.
Set Implicit Arguments.
Unset Strict Implicit.
Local Open Scope nat_scope.
Notation tr := (nat * nat * nat)%type.

Lemma flatten_inj : forall T U : list tr, flatten T = flatten U -> T = U.
Proof.
  induction T as [|[[a b] c] T IH]; intros [|[[x y] z] U] H; try discriminate H; auto.
  cbn in H. injection H as -> -> -> H. f_equal. auto.
Qed.
(** a flip of a triangle with itself can only hit a degenerate triangle *)
Lemma flip_self pre (T : list tr) i a b ix : i < length T ->
  flip_indices (pre ++ flatten T) a b (length pre + 3 * i) (length pre + 3 * i) = Ok (Some ix) ->
  exists T', ix = pre ++ flatten T' /\ length T' = length T /\ forall x y, tnet T' x y = tnet T x y.
Proof.
  intros Li H. destruct (nth_error T i) as [t|] eqn:Ti; [|apply nth_error_None in Ti; lia]. destruct t as [[x y] z].
  unfold flip_indices in H. rewrite (offset_ok pre a Ti) in H. cbn [bind] in H.
  set (o := if x =? a then 0 else if y =? a then 1 else 2) in *.
  assert (Oo : o < 3) by (unfold o; destruct (x =? a), (y =? a); lia).
  rewrite (slot_comp pre Ti Oo), (slot_comp pre Ti (mod3 (o + 1))) in H. cbn [bind] in H.
  destruct (_ || _) eqn:E1 in H; [discriminate|].
  rewrite ?(offset_ok pre a Ti) in H. cbn [bind] in H. fold o in H.
  rewrite ?(slot_comp pre Ti Oo), ?(slot_comp pre Ti (mod3 (o + 2))) in H. cbn [bind] in H.
  destruct (_ || _) eqn:E2 in H; [discriminate|].
  rewrite ?(slot_comp pre Ti (mod3 (o + 2))), ?(slot_comp pre Ti (mod3 (o + 1))) in H. cbn [bind] in H.
  apply neg_eqs in E1 as [A1 B1]. apply neg_eqs in E2 as [_ B2]. rewrite B1, B2 in H.
  pose proof (@slot_set pre T i x y z 0 a Ti ltac:(lia)) as W. rewrite Nat.add_0_r in W. rewrite W in H. clear W. cbn [bind] in H.
  rewrite (@slot_set pre _ i a y z 1 b) in H; [|apply nth_error_upd_eq; lia|lia]. cbn [bind] in H. rewrite upd_upd in H.
  rewrite (@slot_set pre _ i a b z 2 b) in H; [|apply nth_error_upd_eq; lia|lia]. cbn [bind] in H. rewrite upd_upd in H.
  pose proof (@slot_set pre (upd T i (a, b, b)) i a b b 0 b) as W. rewrite Nat.add_0_r in W.
  rewrite W in H; [|apply nth_error_upd_eq; lia|lia]. clear W. cbn [bind] in H. rewrite upd_upd in H.
  rewrite (@slot_set pre _ i b b b 1 b) in H; [|apply nth_error_upd_eq; lia|lia]. cbn [bind] in H. rewrite upd_upd in H.
  rewrite (@slot_set pre _ i b b b 2 b) in H; [|apply nth_error_upd_eq; lia|lia]. cbn [bind] in H. rewrite upd_upd in H.
  injection H as <-. exists (upd T i (b, b, b)). split; [reflexivity|]. split; [apply upd_length|].
  intros u w. rewrite (@tnet_upd T i (x, y, z)) by auto.
  assert (Z1 : net (tri_edges (b, b, b)) u w = 0%Z).
  { cbn [tri_edges]. rewrite net3. pose proof (net_rev1 b b u w). lia. }
  assert (Z2 : net (tri_edges (x, y, z)) u w = 0%Z).
  { rewrite (@rot3_net (a, b, b) (x, y, z)).
    - cbn [tri_edges]. rewrite net3, (net_rev1 a b). pose proof (net_rev1 b b u w). lia.
    - clear -A1 B1 B2 Oo. clearbody o. subst. destruct o as [|[|[|]]]; [| | |lia]; cbn in *; subst; auto. }
  lia.
Qed.
Lemma flip_net pre (T : list tr) i j a b ix : i < length T -> j < length T ->
  flip_indices (pre ++ flatten T) a b (length pre + 3 * i) (length pre + 3 * j) = Ok (Some ix) ->
  exists T', ix = pre ++ flatten T' /\ length T' = length T /\ forall x y, tnet T' x y = tnet T x y.
Proof.
  intros Li Lj H. destruct (Nat.eq_dec i j) as [<- |NE]; [eapply flip_self; eauto|].
  apply flip_slots in H as (T' & -> & F); auto. exists T'. split; auto. split; [|apply (flipped_net NE F)].
  destruct F as (c & d & t & u & _ & _ & _ & _ & L & _). auto.
Qed.

(** the map of opposite vertices only mentions slots of the buffer *)
Definition slots (base len : nat) (opp : pmap) : Prop :=
  forall k v pos, p_get opp k = Some (v, pos) -> exists i, i < len /\ pos = base + 3 * i.
Lemma slots_insert base len opp k v i : slots base len opp -> i < len -> slots base len (p_insert opp k (v, base + 3 * i)).
Proof.
  intros H L k' v' pos G. rewrite get_insert in G. destruct (pair_eqb k' k); [injection G as <- <-; eauto|eapply H; eauto].
Qed.
Lemma slots_remove base len opp k : slots base len opp -> slots base len (p_remove opp k).
Proof. intros H k' v' pos G. rewrite get_remove in G. destruct (pair_eqb k' k); [discriminate|eapply H; eauto]. Qed.
Lemma slots_mono base len len' opp : slots base len opp -> len <= len' -> slots base len' opp.
Proof. intros H L k v pos G. destruct (H _ _ _ G) as (i & A & B). exists i. split; [lia|auto]. Qed.

Section DelLaw.
  Variables (P : Type) (vs : list (P * nat)) (apos aneg : P -> P -> P -> bool).
  Variables (convex : P -> P -> P -> bool) (incircle : P -> P -> P -> P -> bool) (dbg : bool) (pre : list nat).
  Notation M := (delaunay dbg vs apos aneg convex incircle).
  Notation L := (linear vs apos aneg).
  Notation g := (glob vs).
  Notation slots := (slots (length pre)).
  Definition same_net (T T' : list tr) : Prop := length T' = length T /\ forall x y, tnet T' x y = tnet T x y.

  Lemma edge_net opp T a b r opp' ix' : slots (length T) opp ->
    legalize_edge vs convex incircle opp (pre ++ flatten T) a b = Ok (r, opp', ix') ->
    exists T', ix' = pre ++ flatten T' /\ same_net T T' /\ slots (length T') opp'.
  Proof.
    intros S H. assert (SAME : forall o, Ok (@None (nat * nat), opp, pre ++ flatten T) = Ok (o, opp', ix') ->
       exists T', ix' = pre ++ flatten T' /\ same_net T T' /\ slots (length T') opp').
    { intros o E. injection E as _ <- <-. exists T. split; auto. split; [split; auto|auto]. }
    unfold legalize_edge in H. destruct (p_get opp (a, b)) as [[c tab]|] eqn:G1; [|eauto].
    inv_ok H. inv_ok H. inv_ok H. destruct (p_get opp (b, a)) as [[d tba]|] eqn:G2; [|eauto].
    inv_ok H. destruct (_ || _); [eauto|]. destruct (incircle _ _ _ _); [|eauto].
    destruct (S _ _ _ G1) as (i & Li & ->). destruct (S _ _ _ G2) as (j & Lj & ->).
    inv_ok H. inv_ok H. match type of H5 with unwrap ?o = _ => destruct o as [ix1|]; [|discriminate] end.
    apply flip_net in H4 as (T' & -> & LT & NT); auto. injection H5 as <-. injection H as _ <- <-.
    exists T'. split; auto. split; [split; auto|]. rewrite LT. repeat (apply slots_insert; auto). repeat apply slots_remove. auto.
  Qed.
  Lemma loop_net con : forall fuel w opp T opp' ix', slots (length T) opp ->
    legalize_loop vs convex incircle fuel con w opp (pre ++ flatten T) = Ok (opp', ix') ->
    exists T', ix' = pre ++ flatten T' /\ same_net T T' /\ slots (length T') opp'.
  Proof.
    induction fuel as [|fuel IH]; intros w opp T opp' ix' S H; [discriminate|]. cbn [legalize_loop] in H.
    destruct (snd w) as [|[a b] rest].
    - injection H as <- <-. exists T. split; auto. split; [split; auto|auto].
    - inv_ok H. destruct a0 as [[r opp1] ix1]. destruct (edge_net S H0) as (T1 & -> & [L1 N1] & S1).
      assert (FIN : forall w', legalize_loop vs convex incircle fuel con w' opp1 (pre ++ flatten T1) = Ok (opp', ix') ->
                exists T', ix' = pre ++ flatten T' /\ same_net T T' /\ slots (length T') opp').
      { intros w' E. destruct (IH _ _ _ _ _ S1 E) as (T2 & -> & [L2 N2] & S2). exists T2. split; auto. split; [|auto].
        split; [congruence|]. intros x y. rewrite N2, N1. auto. }
      destruct r as [[c d]|]; [|eauto]. inv_ok H. inv_ok H. inv_ok H. inv_ok H. inv_ok H. eauto.
  Qed.
  Lemma triangle_net con opp T x y z opp' ix' : slots (length T) opp ->
    legalize_triangle vs convex incircle con opp (pre ++ flatten T) x y z = Ok (opp', ix') ->
    exists T', ix' = pre ++ flatten T' /\ same_net T T' /\ slots (length T') opp'.
  Proof. intros S H. unfold legalize_triangle in H. inv_ok H. inv_ok H. inv_ok H. eapply loop_net; eauto. Qed.
  Lemma put_net opp T a b c opp' ix' : slots (length T) opp -> del_put vs dbg opp (pre ++ flatten T) a b c = Ok (opp', ix') ->
    put vs (pre ++ flatten T) a b c = Ok ix' /\ ix' = pre ++ flatten (T ++ [g (a, b, c)]) /\ slots (length (T ++ [g (a, b, c)])) opp'.
  Proof.
    intros S H. unfold del_put in H. inv_ok H. inv_ok H. injection H as <- <-. split; auto. apply put_ok in H0 as (-> & _).
    split; [rewrite flatten_app, app_assoc; auto|].
    rewrite !app_length, flatten_length. cbn [length]. repeat (apply slots_insert; [|lia]). eapply slots_mono; eauto. lia.
  Qed.
  (** one emitted triangle *)
  Definition adds (T T' : list tr) (U : list tr) : Prop :=
    length T' = length T + length U /\ forall x y, tnet T' x y = (tnet T x y + tnet (map g U) x y)%Z.
  Lemma emit_net con opp T d x y z s1 s2 opp' ix' : slots (length T) opp ->
    del_emit vs convex incircle dbg d x con (opp, pre ++ flatten T) y z s1 s2 = Ok (opp', ix') ->
    (forall jx, exists jx', match d with DLeft => put vs jx s1 x s2 | _ => put vs jx s1 s2 x end = Ok jx') /\
    exists T', ix' = pre ++ flatten T' /\ adds T T' [emitted d s1 s2 x] /\ slots (length T') opp'.
  Proof.
    intros S H. unfold del_emit in H. inv_ok H. destruct a as [opp1 ix1]. cbn [fst snd] in H, H0.
    assert (A : match d with DLeft => put vs (pre ++ flatten T) s1 x s2 | _ => put vs (pre ++ flatten T) s1 s2 x end = Ok ix1 /\
      ix1 = pre ++ flatten (T ++ [g (emitted d s1 s2 x)]) /\ slots (length (T ++ [g (emitted d s1 s2 x)])) opp1).
    { destruct d; apply (put_net S); auto. }
    destruct A as (A & -> & S1). destruct (triangle_net S1 H) as (T' & -> & [L1 N1] & S2). split.
    - intros jx. assert (B : s1 < length vs /\ s2 < length vs /\ x < length vs) by (destruct d; apply put_ok in A; tauto).
      destruct B as (B1 & B2 & B3). destruct d; apply put_total; auto.
    - exists T'. split; auto. split; [|auto]. split; [rewrite L1, app_length; auto|].
      intros u w. rewrite N1, tnet_app. reflexivity.
  Qed.
  Lemma adds_refl T : adds T T [].
  Proof. split; [cbn; lia|]. intros x y. change (tnet (map g []) x y) with 0%Z. lia. Qed.
  Lemma adds_trans T1 T2 T3 U1 U2 : adds T1 T2 U1 -> adds T2 T3 U2 -> adds T1 T3 (U1 ++ U2).
  Proof.
    intros [A1 B1] [A2 B2]. split; [rewrite app_length; lia|]. intros x y. rewrite B2, B1, map_app, tnet_app. lia.
  Qed.

  Lemma same_net_ok con d x : forall st opp T st' opp' ix', slots (length T) opp ->
    del_same vs apos aneg convex incircle dbg d x con st (opp, pre ++ flatten T) = Ok (st', (opp', ix')) ->
    exists T' U, ix' = pre ++ flatten T' /\ adds T T' U /\ slots (length T') opp' /\
      forall jx, lin_same vs apos aneg d x st jx = Ok (st', jx ++ flatten (map g U)).
  Proof.
    induction st as [|s1 st IH]; intros opp T st' opp' ix' S H.
    - cbn in H. injection H as <- <- <-. exists T, []. split; auto. split; [apply adds_refl|]. split; auto. intros jx. cbn. rewrite app_nil_r. auto.
    - destruct st as [|s2 st].
      + cbn in H. injection H as <- <- <-. exists T, []. split; auto. split; [apply adds_refl|]. split; auto. intros jx. cbn. rewrite app_nil_r. auto.
      + change (del_same vs apos aneg convex incircle dbg d x con (s1 :: s2 :: st) (opp, pre ++ flatten T)) with
        (let* b := blocked vs apos aneg d x s1 s2 in if b then Ok (x :: s1 :: s2 :: st, (opp, pre ++ flatten T)) else
         let* s := del_emit vs convex incircle dbg d x con (opp, pre ++ flatten T) s2 s1 s1 s2 in
         del_same vs apos aneg convex incircle dbg d x con (s2 :: st) s) in H.
        inv_ok H. destruct a.
        * injection H as <- <- <-. exists T, []. split; auto. split; [apply adds_refl|]. split; auto.
          intros jx. cbn [lin_same]. rewrite H0. cbn [bind map flatten flat_map]. rewrite app_nil_r. auto.
        * inv_ok H. destruct a as [opp1 ix1]. destruct (emit_net S H1) as (PT & T1 & -> & A1 & S1).
          destruct (IH _ _ _ _ _ S1 H) as (T2 & U & -> & A2 & S2 & LN). exists T2, ([emitted d s1 s2 x] ++ U).
          split; auto. split; [eapply adds_trans; eauto|]. split; auto. intros jx.
          change (lin_same vs apos aneg d x (s1 :: s2 :: st) jx) with
            (let* b := blocked vs apos aneg d x s1 s2 in if b then Ok (x :: s1 :: s2 :: st, jx) else
             let* ix := match d with DLeft => put vs jx s1 x s2 | _ => put vs jx s1 s2 x end in
             lin_same vs apos aneg d x (s2 :: st) ix).
          rewrite H0. cbn [bind]. destruct (PT jx) as [j1 E1]. rewrite E1. apply emitted_ok in E1. subst j1. cbn [bind].
          rewrite LN, <- app_assoc, map_app, flatten_app. auto.
  Qed.
  Lemma fan_net_ok con d x : forall st opp T opp' ix', slots (length T) opp ->
    del_fan vs convex incircle dbg d x con st (opp, pre ++ flatten T) = Ok (opp', ix') ->
    exists T' U, ix' = pre ++ flatten T' /\ adds T T' U /\ slots (length T') opp' /\
      forall jx, lin_fan vs d x st jx = Ok (jx ++ flatten (map g U)).
  Proof.
    induction st as [|s1 st IH]; intros opp T opp' ix' S H.
    - cbn in H. injection H as <- <-. exists T, []. split; auto. split; [apply adds_refl|]. split; auto. intros jx. cbn. rewrite app_nil_r. auto.
    - destruct st as [|s2 st].
      + cbn in H. injection H as <- <-. exists T, []. split; auto. split; [apply adds_refl|]. split; auto. intros jx. cbn. rewrite app_nil_r. auto.
      + change (del_fan vs convex incircle dbg d x con (s1 :: s2 :: st) (opp, pre ++ flatten T)) with
        (let* s := del_emit vs convex incircle dbg d x con (opp, pre ++ flatten T) s1 s2 s1 s2 in
         del_fan vs convex incircle dbg d x con (s2 :: st) s) in H.
        inv_ok H. destruct a as [opp1 ix1]. destruct (emit_net S H0) as (PT & T1 & -> & A1 & S1).
        destruct (IH _ _ _ _ S1 H) as (T2 & U & -> & A2 & S2 & LN). exists T2, ([emitted d s1 s2 x] ++ U).
        split; auto. split; [eapply adds_trans; eauto|]. split; auto. intros jx.
        change (lin_fan vs d x (s1 :: s2 :: st) jx) with
            (let* ix := match d with DLeft => put vs jx s1 x s2 | _ => put vs jx s1 s2 x end in lin_fan vs d x (s2 :: st) ix).
        destruct (PT jx) as [j1 E1]. rewrite E1. apply emitted_ok in E1. subst j1. cbn [bind].
        rewrite LN, <- app_assoc, map_app, flatten_app. auto.
  Qed.
  Lemma add_net s e x d T e' ix' : d <> DNone -> same_as s e -> slots (length T) (e_opp e) ->
    del_add vs apos aneg convex incircle dbg e x d (pre ++ flatten T) = Ok (e', ix') ->
    exists T' U s', ix' = pre ++ flatten T' /\ adds T T' U /\ slots (length T') (e_opp e') /\ same_as s' e' /\
      lin_add vs apos aneg s x d [] = Ok (s', flatten (map g U)).
  Proof.
    intros ND (ES & ED & EL & ER) S H. unfold del_add in H. unfold lin_add. rewrite ED, ES.
    assert (DD : dir_eqb d d = true) by (apply dir_eqb_eq; auto).
    destruct (dir_eqb (e_d e) DNone) eqn:EN.
    - inv_ok H. inv_ok H. injection H as <- <-. rewrite H0. cbn [assert bind fst l_d]. rewrite DD. cbn [assert].
      exists T, []. eexists. split; auto. split; [apply adds_refl|]. split; [auto|]. split; [|reflexivity]. repeat split; auto.
    - destruct (dir_eqb (e_d e) d) eqn:EQ.
      + apply dir_eqb_eq in EQ. inv_ok H. inv_ok H. inv_ok H. injection H as <- <-. destruct a0 as [st' [opp' ix1]].
        cbn [e_stack constrain e_con e_opp] in H1, H2. destruct (same_net_ok S H2) as (T' & U & -> & A & S' & LN).
        rewrite H1. cbn [assert]. rewrite EQ, LN. cbn [bind fst snd l_d app]. rewrite DD. cbn [assert].
        exists T', U. eexists. split; auto. split; auto. split; [auto|]. split; [|reflexivity]. repeat split; auto.
      + inv_ok H. unfold del_opposite in H. unfold lin_opposite. inv_ok H. cbn [e_d constrain e_stack] in *. rewrite ED, ES. rewrite H1. cbn [assert].
        destruct (e_stack e) as [|s1 [|s2 st]]; [discriminate| |].
        * injection H as <- <-. cbn [bind fst l_d]. rewrite DD. cbn [assert].
          exists T, []. eexists. split; auto. split; [apply adds_refl|]. split; [auto|]. split; [|reflexivity]. repeat split; auto.
        * inv_ok H. injection H as <- <-. destruct a0 as [opp' ix1]. cbn [e_con e_opp constrain] in H2.
          destruct (fan_net_ok S H2) as (T' & U & -> & A & S' & LN). rewrite LN. cbn [bind fst snd l_d app]. rewrite DD. cbn [assert].
          exists T', U. eexists. split; auto. split; auto. split; [auto|]. split; [|reflexivity]. repeat split; auto.
  Qed.

  Definition del_inv (e : del) (c : gc) (len : nat) : Prop :=
    exists s, same_as s e /\ lin_inv vs s c len /\ slots len (e_opp e).

  Lemma del_lawful : lawful M (idx vs) pre.
  Proof.
    refine (@mkLaw M (idx vs) pre (fun _ => True) del_inv _ _ _ _ _ _ _); auto.
    - intros v len. exists (lin_new v). split; [repeat split|]. split; [|intros k v' pos; discriminate].
      exact (law_new (lin_lawful vs apos aneg pre) v len).
    - intros e c len len' (s & A & I & S) Le. exists s. split; auto. split; auto. eapply slots_mono; eauto.
    - intros T e c b x e' ix' _ (s & SA & I & S) H.
      set (e1 := if b then mkDel (e_stack e) (e_d e) (e_con e) (e_opp e) (Some x) (e_right e)
                 else mkDel (e_stack e) (e_d e) (e_con e) (e_opp e) (e_left e) (Some x)).
      set (s1 := if b then mkLin (l_stack s) (l_d s) (Some x) (l_right s) else mkLin (l_stack s) (l_d s) (l_left s) (Some x)).
      assert (S1 : same_as s1 e1) by (destruct SA as (? & ? & ? & ?); unfold s1, e1; destruct b; repeat split; auto).
      assert (ND : dside b <> DNone) by (destruct b; discriminate).
      assert (SL : slots (length T) (e_opp e1)) by (unfold e1; destruct b; exact S).
      assert (EM : del_add vs apos aneg convex incircle dbg e1 x (dside b) (pre ++ flatten T) = Ok (e', ix')) by (unfold e1; destruct b; exact H).
      destruct (add_net ND S1 SL EM) as (T' & U & s' & -> & [LT NT] & S' & SA' & EL).
      assert (ML : @m_step L (s, []) (b, x) = Ok (s', flatten (map g U))) by (unfold s1 in EL; destruct b; exact EL).
      destruct (@law_op _ _ _ (lin_lawful vs apos aneg []) [] s c b x s' _ Logic.I I ML) as (T2 & c' & E2 & _ & I2 & _ & G1 & G2 & G3 & G4).
      cbn [app] in E2. apply flatten_inj in E2. subst T2.
      exists T', c'. split; auto. split; auto. split; [exists s'; split; auto|]. split; [lia|]. split; auto. split; auto. split.
      + intros u w. rewrite NT. specialize (G3 u w). change (tnet [] u w) with 0%Z in G3. lia.
      + unfold zlen in *. rewrite map_length in G4. cbn [length] in G4. lia.
    - intros T e c ix' _ (s & (ES & _) & I & S) N H. cbn in H. unfold del_finish in H. rewrite <- ES in H.
      exact (@law_finish _ _ _ (lin_lawful vs apos aneg pre) T s c ix' Logic.I I N H).
    - intros e c len (s & (ES & ED & EL & ER) & I & S) H. cbn in H. unfold del_is_right in H. rewrite <- ED in H.
      exact (@law_right _ _ _ (lin_lawful vs apos aneg pre) s c len I H).
    - intros e c len t (s & (ES & ED & EL & ER) & I & S) N H. cbn in N, H. unfold del_is_right in N. unfold del_last_opposite in H.
      rewrite <- ES, <- ED, <- EL, <- ER in H. rewrite <- ED in N.
      exact (@law_opp _ _ _ (lin_lawful vs apos aneg pre) s c len t I N H).
  Qed.
End DelLaw.
