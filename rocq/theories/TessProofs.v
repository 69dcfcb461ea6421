(** Fan, quad and ear clipping. *)
From Coq Require Import List Arith Lia Bool Permutation.
From Verif Require Import Base TriSpec TriFacts Tess.
Import ListNotations.
Set Implicit Arguments.
Unset Strict Implicit.

(** ** Fan *)
Lemma fan_list (c : nat) : forall r a, triangulates (c :: a :: r) (map (fun p => (c, fst p, snd p)) (windows (a :: r))).
Proof.
  induction r as [|b r IH]; intros a.
  - exists c, [], a. split; auto. constructor.
  - exact (@triangulates_ear nat [] c a b r _ (IH b)).
Qed.
Lemma fan_ok dbg flat vs T : fan_triangulation dbg flat vs = Ok T -> 2 <= length vs -> triangulates vs T.
Proof.
  unfold fan_triangulation. intros H L. inv_ok H. destruct vs as [|c [|a r]]; cbn in L; try lia.
  cbn in H. injection H as <-. apply (fan_list c r a).
Qed.
Lemma fan_total vs b : 1 <= length vs -> (exists T, fan_triangulation b true vs = Ok T) /\ (exists T, fan_triangulation false false vs = Ok T).
Proof. unfold fan_triangulation, assert. destruct vs; cbn; [lia|]. rewrite orb_true_r. eauto. Qed.

(** ** Quad and triangle *)
Section Quad.
  Variables (P S : Type) (ds : P -> P -> S) (le : S -> S -> bool) (cv : P -> P -> P -> bool).
  Lemma quad02 (a b c d : nat) : triangulates [a; b; c; d] [(a, b, c); (a, c, d)].
  Proof. apply (@triangulates_ear nat [] a b c [d]). apply triangulates_tri. Qed.
  Lemma quad13 (a b c d : nat) : triangulates [a; b; c; d] [(b, c, d); (b, d, a)].
  Proof.
    change [a; b; c; d] with ([a] ++ [b; c; d]). apply triangulates_rot. cbn.
    apply (@triangulates_ear nat [] b c d [a]). apply triangulates_tri.
  Qed.
  Lemma quad_ok vs T : min_weight_quad ds le cv vs = Ok T -> triangulates (map snd vs) T.
  Proof.
    unfold min_weight_quad. destruct vs as [|[p0 i0] [|[p1 i1] [|[p2 i2] [|[p3 i3] [|]]]]]; try discriminate.
    intros H. injection H as <-. cbn.
    destruct (le _ _), (cv _ _ _ && cv _ _ _); auto using quad02, quad13.
  Qed.
  Lemma small_ok vs T : try_min_weight_small_direct ds le cv vs = Ok (Some T) -> triangulates (map snd vs) T.
  Proof.
    unfold try_min_weight_small_direct. destruct (length vs) as [|[|[|[|[|]]]]] eqn:L; try discriminate.
    - destruct (map snd vs) as [|a [|b [|c [|]]]]; try discriminate. intros H; injection H as <-. apply triangulates_tri.
    - intros H. inv_ok H. injection H as <-. eapply quad_ok; eauto.
  Qed.
  Lemma small_total vs : exists o, try_min_weight_small_direct ds le cv vs = Ok o /\
    (o = None <-> length vs <> 3 /\ length vs <> 4).
  Proof.
    unfold try_min_weight_small_direct.
    destruct vs as [|[p0 i0] [|[p1 i1] [|[p2 i2] [|[p3 i3] [|]]]]]; cbn;
      eexists; (split; [reflexivity|]); split; intros; try discriminate; intuition lia.
  Qed.
End Quad.

(** ** Ear clipping *)
Lemma at_ok {A} (l : list A) i : i < length l -> exists a, at_ l i = Ok a /\ nth_error l i = Some a.
Proof. intros H. unfold at_. destruct (nth_error l i) eqn:E; cbn; [eauto|]. apply nth_error_None in E. lia. Qed.

Definition live (cl : list bool) (i : nat) : bool := match nth_error cl i with Some false => true | _ => false end.
Definition lives (cl : list bool) : list nat := filter (live cl) (seq 0 (length cl)).

Lemma filter_seq_split f i n : i < n -> f i = true ->
  filter f (seq 0 n) = filter f (seq 0 i) ++ i :: filter f (seq (S i) (n - S i)).
Proof.
  intros L F. replace n with (i + (S (n - S i))) at 1 by lia. rewrite seq_app, filter_app. cbn. rewrite F. auto.
Qed.

(** The search finds the first live position of the rotated index sequence. *)
Lemma next_live_in cl n0 : n0 = length cl -> forall k fuel i j r, i + k <= n0 -> k <= fuel ->
  filter (live cl) (seq i k) = j :: r -> next_live fuel cl n0 i = Ok j.
Proof.
  intros N. induction k as [|k IH]; intros fuel i j r E F H; [discriminate|].
  destruct fuel as [|fuel]; [lia|]. cbn [seq filter] in H.
  destruct (@at_ok bool cl i ltac:(lia)) as (b & AB & NB).
  assert (LV : live cl i = negb b) by (unfold live; rewrite NB; destruct b; auto). rewrite LV in H.
  cbn [next_live]. rewrite AB. cbn [bind]. destruct b; cbn [negb] in H.
  - destruct k as [|k]; [discriminate|]. rewrite Nat.mod_small by lia. replace (i + 1) with (S i) by lia.
    eapply IH; eauto; lia.
  - injection H as <- _. auto.
Qed.
Lemma next_live_wrap cl n0 : n0 = length cl -> forall k fuel i, i < n0 -> i + k = n0 -> k <= fuel ->
  filter (live cl) (seq i k) = [] -> next_live fuel cl n0 i = next_live (fuel - k) cl n0 0.
Proof.
  intros N. induction k as [|k IH]; intros fuel i L E F H; [lia|].
  destruct fuel as [|fuel]; [lia|]. cbn [seq filter] in H.
  destruct (@at_ok bool cl i ltac:(lia)) as (b & AB & NB).
  assert (LV : live cl i = negb b) by (unfold live; rewrite NB; destruct b; auto). rewrite LV in H.
  cbn [next_live]. rewrite AB. cbn [bind]. destruct b; cbn [negb] in H; [|discriminate].
  destruct (Nat.eq_dec k 0) as [->|NZ].
  - replace (i + 1) with n0 by lia. rewrite Nat.mod_same by lia. f_equal; lia.
  - rewrite Nat.mod_small by lia. replace (i + 1) with (S i) by lia. rewrite IH by (auto; lia). auto.
Qed.

Lemma next_live_rot cl n0 i j r : n0 = length cl -> i < n0 ->
  filter (live cl) (seq i (n0 - i)) ++ filter (live cl) (seq 0 i) = j :: r ->
  next_live (S n0) cl n0 i = Ok j.
Proof.
  intros N L H. destruct (filter (live cl) (seq i (n0 - i))) as [|j' r'] eqn:E; cbn in H.
  - rewrite (@next_live_wrap cl n0 N (n0 - i)) by (auto; lia). eapply next_live_in; [auto| | |exact H]; lia.
  - injection H as <- _. eapply next_live_in; [auto| | |exact E]; lia.
Qed.

Lemma in_lives cl i : In i (lives cl) <-> live cl i = true.
Proof.
  unfold lives. rewrite filter_In, in_seq. split; [tauto|]. intros H. split; auto. split; [lia|].
  unfold live in H. apply nth_error_Some. destruct (nth_error cl i); congruence.
Qed.
Lemma lives_lt cl i : In i (lives cl) -> i < length cl.
Proof. unfold lives. rewrite filter_In, in_seq. lia. Qed.
Lemma lives_nodup cl : NoDup (lives cl).
Proof. apply NoDup_filter, seq_NoDup. Qed.

(** any position: terminates at a live position *)
Lemma next_live_any cl n0 i : n0 = length cl -> i < n0 -> lives cl <> [] ->
  exists j, next_live (S n0) cl n0 i = Ok j /\ In j (lives cl).
Proof.
  intros N L NE.
  destruct (filter (live cl) (seq i (n0 - i)) ++ filter (live cl) (seq 0 i)) as [|j r] eqn:E.
  - exfalso. apply app_eq_nil in E as [E1 E2]. apply NE. unfold lives. rewrite <- N.
    replace n0 with (i + (n0 - i)) by lia. rewrite seq_app, filter_app, Nat.add_0_l, E2, E1. auto.
  - exists j. split; [eapply next_live_rot; eauto|].
    assert (I : In j (filter (live cl) (seq i (n0 - i)) ++ filter (live cl) (seq 0 i))) by (rewrite E; left; auto).
    apply in_app_or in I. apply in_lives. rewrite !filter_In in I. tauto.
Qed.

(** from a live position: the cyclic successor in the list of live positions *)
Lemma nodup_split_unique (l : list nat) p i q p' q' : NoDup l -> l = p ++ i :: q -> l = p' ++ i :: q' -> p = p' /\ q = q'.
Proof.
  intros ND -> E. revert p' E ND. induction p as [|a p IH]; intros p' E ND; destruct p' as [|b p']; cbn in *.
  - injection E as ->. auto.
  - injection E as <- ->. exfalso. inversion ND; subst. apply H1. apply in_or_app. right. left. auto.
  - injection E as -> E. exfalso. inversion ND; subst. apply H1. apply in_or_app. right. left. auto.
  - injection E as -> E. inversion ND; subst. destruct (IH _ E); auto. subst. auto.
Qed.
Lemma next_live_succ cl n0 p i q : n0 = length cl -> lives cl = p ++ i :: q ->
  forall j r, q ++ p ++ [i] = j :: r -> next_live (S n0) cl n0 ((i + 1) mod n0) = Ok j.
Proof.
  intros N L j r E.
  assert (I : In i (lives cl)) by (rewrite L; apply in_or_app; right; left; auto).
  pose proof (lives_lt I) as LT. apply in_lives in I. rewrite <- N in LT.
  assert (L2 : lives cl = filter (live cl) (seq 0 i) ++ i :: filter (live cl) (seq (S i) (n0 - S i))).
  { unfold lives. rewrite <- N. apply filter_seq_split; auto. }
  destruct (nodup_split_unique (lives_nodup cl) L L2) as [-> ->].
  destruct (Nat.eq_dec (i + 1) n0) as [EN|NE].
  - rewrite EN, Nat.mod_same by lia. replace (n0 - S i) with 0 in E by lia. cbn [seq filter app] in E.
    eapply next_live_rot with (r := r); auto; try lia. rewrite Nat.sub_0_r. cbn [seq filter]. rewrite app_nil_r.
    replace n0 with (i + 1) by lia. rewrite seq_app, filter_app. cbn. rewrite I. auto.
  - rewrite Nat.mod_small by lia. replace (i + 1) with (S i) by lia.
    eapply next_live_rot with (r := r); auto; try lia.
    replace (S i) with (i + 1) at 3 by lia. rewrite seq_app, filter_app. cbn [seq filter plus]. rewrite I. auto.
Qed.

Lemma lives_clip cl b : b < length cl -> lives (upd cl b true) = filter (fun x => negb (x =? b)) (lives cl).
Proof.
  intros L. unfold lives. rewrite upd_length. induction (seq 0 (length cl)) as [|x s IH]; [reflexivity|].
  cbn [filter]. rewrite IH. unfold live at 1. destruct (Nat.eqb_spec x b) as [->|NE].
  - rewrite nth_error_upd_eq by auto. destruct (live cl b) eqn:LB; auto. cbn [filter]. rewrite Nat.eqb_refl. auto.
  - rewrite nth_error_upd_ne by auto. fold (live cl x). destruct (live cl x); auto. cbn [filter].
    apply Nat.eqb_neq in NE. rewrite NE. auto.
Qed.
Lemma filter_keep (b : nat) l : ~ In b l -> filter (fun x => negb (x =? b)) l = l.
Proof.
  induction l as [|x l IH]; cbn; auto. intros H. destruct (Nat.eqb_spec x b); [subst; tauto|]. cbn. rewrite IH; tauto.
Qed.
Lemma filter_mid (b : nat) l1 l2 : NoDup (l1 ++ b :: l2) -> filter (fun x => negb (x =? b)) (l1 ++ b :: l2) = l1 ++ l2.
Proof.
  intros ND. apply NoDup_remove in ND as [ND NI]. rewrite filter_app. cbn. rewrite Nat.eqb_refl. cbn.
  rewrite <- filter_app. apply filter_keep. auto.
Qed.

Lemma lives_all n : lives (repeat false n) = seq 0 n.
Proof.
  unfold lives. rewrite repeat_length.
  transitivity (filter (fun _ => true) (seq 0 n)).
  - apply filter_ext_in. intros x I. apply in_seq in I. unfold live. rewrite nth_error_repeat by lia. auto.
  - induction (seq 0 n); cbn; congruence.
Qed.

(** geometry-independent description of three consecutive live positions *)
Lemma three_next cl n0 ia : n0 = length cl -> In ia (lives cl) -> 3 <= length (lives cl) ->
  exists ib ic, next_live (S n0) cl n0 ((ia + 1) mod n0) = Ok ib /\ next_live (S n0) cl n0 ((ib + 1) mod n0) = Ok ic /\
    ia <> ib /\ ib <> ic /\ ic <> ia /\ In ib (lives cl) /\ In ic (lives cl) /\
    exists p q r, lives cl = p ++ ia :: q /\ q ++ p = ib :: ic :: r.
Proof.
  intros N I L. destruct (in_split _ _ I) as (p & q & E).
  assert (LQ : length (q ++ p) + 1 = length (lives cl)) by (rewrite E, !app_length; cbn; lia).
  destruct (q ++ p) as [|ib [|ic r]] eqn:EQ; cbn in LQ; try lia.
  exists ib, ic.
  assert (S1 : next_live (S n0) cl n0 ((ia + 1) mod n0) = Ok ib).
  { eapply next_live_succ with (r := ic :: r ++ [ia]); eauto. rewrite app_assoc, EQ. reflexivity. }
  assert (S2 : next_live (S n0) cl n0 ((ib + 1) mod n0) = Ok ic).
  { destruct q as [|b q]; cbn in EQ.
    - subst p. eapply next_live_succ with (p := []) (q := ic :: r ++ [ia]); eauto. reflexivity.
    - injection EQ as -> EQ. eapply next_live_succ with (p := p ++ [ia]) (q := q); eauto.
      + rewrite E, <- app_assoc. reflexivity.
      + rewrite !app_assoc, EQ. reflexivity. }
  assert (PM : Permutation (lives cl) (ia :: ib :: ic :: r)).
  { rewrite E, <- EQ. etransitivity; [symmetry; apply Permutation_middle|]. constructor. apply Permutation_app_comm. }
  pose proof (Permutation_NoDup PM (lives_nodup cl)) as ND.
  inversion ND as [|? ? N1 ND1]; subst. inversion ND1 as [|? ? N2 ND2]; subst. cbn in *.
  repeat (split; [solve [auto | intuition | eapply Permutation_in; [symmetry; exact PM|cbn; auto]]|]).
  exists p, q, r. auto.
Qed.

Section Ear.
  Variables (P : Type) (cvx : P -> P -> P -> bool) (ins : P -> P -> P -> P -> bool) (col : P -> P -> P -> bool) (rnd : nat -> nat).
  Notation loopE := (ear_loop cvx ins col rnd).

  Lemma map_nth_tri (vs : list (P * nat)) p T : triangulates p T ->
    forall f : nat -> nat, triangulates (map f p) (map (fun t => match t with (a, b, c) => (f a, f b, f c) end) T).
  Proof.
    intros (a & l & b & -> & H) f. exists (f a), (map f l), (f b).
    split; [cbn; rewrite map_app; auto|]. clear vs.
    induction H; cbn.
    - constructor.
    - rewrite !map_app. cbn. constructor; auto.
    - eapply tri_perm; [apply Permutation_map; eauto|auto].
    - apply tri_turn. auto.
  Qed.

  (** [idx vs] maps local positions to indices. *)
  Definition idx (vs : list (P * nat)) (i : nat) : nat := match nth_error vs i with Some p => snd p | None => 0 end.
  Lemma map_idx vs : map (idx vs) (seq 0 (length vs)) = map snd vs.
  Proof.
    unfold idx. induction vs as [|v vs IH]; [reflexivity|]. cbn [length seq map]. f_equal.
    rewrite <- seq_shift, map_map. exact IH.
  Qed.

  Lemma ear_step_tri (cl : list bool) ia ib ic p q r T' (f : nat -> nat) :
    lives cl = p ++ ia :: q -> q ++ p = ib :: ic :: r ->
    triangulates (map f (lives (upd cl ib true))) T' -> ib < length cl ->
    triangulates (map f (lives cl)) ((f ia, f ib, f ic) :: T').
  Proof.
    intros E EQ H L. rewrite lives_clip in H by auto. pose proof (lives_nodup cl) as ND.
    rewrite E in *. rewrite map_app. cbn [map].
    change (f ia :: map f q) with (map f (ia :: q)). apply triangulates_rot. rewrite <- map_app. cbn [app]. rewrite EQ.
    cbn [map]. apply (@triangulates_ear nat [] (f ia) (f ib) (f ic) (map f r)). cbn [app].
    change (triangulates (map f (ia :: ic :: r)) T').
    destruct q as [|b q]; cbn in EQ.
    - subst p. cbn [app] in H. pose proof (@filter_mid ib [] ((ic :: r) ++ [ia]) ND) as FM. cbn [app] in FM. rewrite FM in H.
      change (ic :: r ++ [ia]) with ((ic :: r) ++ [ia]) in H. rewrite map_app in H. apply triangulates_rot in H. exact H.
    - injection EQ as -> EQ. change (p ++ ia :: ib :: q) with (p ++ [ia] ++ ib :: q) in *. rewrite app_assoc in *.
      rewrite filter_mid in H by auto. rewrite <- app_assoc, map_app in H. apply triangulates_rot in H.
      rewrite <- map_app, <- app_assoc in H. cbn [app] in H. rewrite EQ in H. exact H.
  Qed.

  Lemma ear_loop_ok dbg randomize vs : forall fuel s out T,
    length (er_clipped s) = length vs -> length (lives (er_clipped s)) = er_n s -> 2 <= er_n s ->
    In (er_ia s) (lives (er_clipped s)) ->
    loopE fuel dbg randomize vs s out = Ok T ->
    exists T', T = out ++ T' /\ triangulates (map (idx vs) (lives (er_clipped s))) (map (@flip_tri nat) T').
  Proof.
    induction fuel as [|fuel IH]; intros s out T LC LN N2 IA H; [discriminate|].
    cbn [ear_loop] in H. destruct (Nat.leb_spec (er_n s) 2) as [LE|GT].
    - injection H as <-. exists []. split; [rewrite app_nil_r; auto|].
      destruct (lives (er_clipped s)) as [|x [|y [|]]]; cbn in LN; try lia.
      cbn. exists (idx vs x), [], (idx vs y). split; auto. constructor.
    - destruct (@three_next (er_clipped s) (length vs) (er_ia s) (eq_sym LC) IA ltac:(lia))
        as (ib & ic & S1 & S2 & D1 & D2 & D3 & IB & IC & p & q & r & E & EQ).
      rewrite S1 in H. cbn [bind] in H. rewrite S2 in H. cbn [bind] in H.
      inv_ok H. clear H0. pose proof (lives_lt IA). pose proof (lives_lt IB). pose proof (lives_lt IC).
      destruct (@at_ok _ vs (er_ia s) ltac:(lia)) as (va & A1 & A2).
      destruct (@at_ok _ vs ib ltac:(lia)) as (vb & B1 & B2).
      destruct (@at_ok _ vs ic ltac:(lia)) as (vc & C1 & C2).
      rewrite A1 in H. cbn [bind] in H. rewrite B1 in H. cbn [bind] in H. rewrite C1 in H. cbn [bind] in H.
      inv_ok H. rename a into em. clear H3.
      set (blocked := _ || _ || _) in H.
      destruct (blocked && (S (er_fails s) <=? er_n s)).
      { apply IH in H; auto. }
      destruct (blocked && (er_succ s <? 2)); [discriminate|].
      assert (CL : lives (upd (er_clipped s) ib true) = filter (fun x => negb (x =? ib)) (lives (er_clipped s))) by (apply lives_clip; lia).
      assert (LN' : length (lives (upd (er_clipped s) ib true)) = er_n s - 1).
      { destruct (in_split _ _ IB) as (u & v & UV). pose proof (lives_nodup (er_clipped s)) as ND.
        rewrite CL, UV, filter_mid by (rewrite <- UV; auto). rewrite <- LN, UV, !app_length. cbn. lia. }
      assert (G : forall ia' su dr T0, In ia' (lives (upd (er_clipped s) ib true)) ->
        loopE fuel dbg randomize vs (mkEar (upd (er_clipped s) ib true) ia' (er_n s - 1) 0 su dr) (out ++ [(snd va, snd vc, snd vb)]) = Ok T0 ->
        exists T', T0 = out ++ T' /\ triangulates (map (idx vs) (lives (er_clipped s))) (map (@flip_tri nat) T')).
      { intros ia' su dr T0 I R. apply IH in R; cbn [er_clipped er_ia er_n]; auto; try lia.
        2:{ rewrite upd_length; auto. }
        destruct R as (T' & -> & TR). exists ((snd va, snd vc, snd vb) :: T'). split; [rewrite <- app_assoc; auto|].
        cbn [map flip_tri]. apply triangulates_turn.
        assert (X : forall i v, nth_error vs i = Some v -> idx vs i = snd v) by (unfold idx; intros i v ->; auto).
        rewrite <- (X _ _ A2), <- (X _ _ B2), <- (X _ _ C2).
        eapply ear_step_tri; eauto. }
      destruct randomize.
      + destruct (next_live _ _ _ _) as [ia'| |] eqn:NL in H; try discriminate. cbn [bind] in H.
        eapply G; [|exact H].
        destruct (@next_live_any (upd (er_clipped s) ib true) (length vs) (rnd (er_draws s) mod length vs)) as (j & J1 & J2).
        * rewrite upd_length; auto.
        * apply Nat.mod_upper_bound. lia.
        * intros Z. rewrite Z in LN'. cbn in LN'. lia.
        * rewrite J1 in NL. injection NL as <-. auto.
      + eapply G; [|exact H]. rewrite CL. apply filter_In. split; auto. apply negb_true_iff, Nat.eqb_neq. auto.
  Qed.

  Lemma ear_ok dbg randomize vs T : 3 <= length vs -> ear_clipping_direct cvx ins col rnd dbg randomize vs = Ok T ->
    triangulates (rev (map snd vs)) T.
  Proof.
    unfold ear_clipping_direct. intros L H. destruct (Nat.ltb_spec (length vs) 3); [lia|].
    apply ear_loop_ok in H; cbn [er_clipped er_ia er_n]; rewrite ?lives_all, ?seq_length, ?repeat_length; auto; try lia.
    - cbn [er_clipped] in H. destruct H as (T' & -> & TR). rewrite lives_all, map_idx in TR. cbn [app].
      apply triangulates_mirror in TR. rewrite map_map in TR.
      rewrite (map_ext _ (fun x => x)), map_id in TR by (intros [[? ?] ?]; auto). auto.
    - apply in_seq. destruct randomize; [|lia]. pose proof (Nat.mod_upper_bound (rnd 0) (length vs)). lia.
  Qed.

  (** Termination: at most [n + 1] attempts per clipped ear. *)
  Lemma ear_loop_total dbg randomize vs : forall fuel s out,
    length (er_clipped s) = length vs -> length (lives (er_clipped s)) = er_n s -> 2 <= er_n s ->
    In (er_ia s) (lives (er_clipped s)) -> er_fails s <= er_n s ->
    er_n s * (length vs + 2) < fuel + er_fails s -> er_n s <= length vs ->
    loopE fuel dbg randomize vs s out <> Diverge.
  Proof.
    induction fuel as [|fuel IH]; intros s out LC LN N2 IA FL FU NL.
    { exfalso. nia. }
    cbn [ear_loop]. destruct (Nat.leb_spec (er_n s) 2) as [LE|GT]; [discriminate|].
    destruct (@three_next (er_clipped s) (length vs) (er_ia s) (eq_sym LC) IA ltac:(lia))
      as (ib & ic & S1 & S2 & D1 & D2 & D3 & IB & IC & p & q & r & E & EQ).
    rewrite S1. cbn [bind]. rewrite S2. cbn [bind].
    replace (negb dbg || _) with true.
    2:{ apply Nat.eqb_neq in D1, D2, D3. rewrite D1, D2, D3. destruct dbg; auto. }
    cbn [assert]. pose proof (lives_lt IA). pose proof (lives_lt IB). pose proof (lives_lt IC).
    destruct (@at_ok _ vs (er_ia s) ltac:(lia)) as (va & A1 & A2).
    destruct (@at_ok _ vs ib ltac:(lia)) as (vb & B1 & B2).
    destruct (@at_ok _ vs ic ltac:(lia)) as (vc & C1 & C2).
    unfold triangle_empty. rewrite A1. cbn [bind]. rewrite B1. cbn [bind]. rewrite C1. cbn [bind].
    set (blocked := _ || _ || _).
    destruct (blocked && (S (er_fails s) <=? er_n s)) eqn:BF.
    { apply andb_true_iff in BF as [_ BF]. apply Nat.leb_le in BF. apply IH; cbn [er_clipped er_ia er_n er_fails]; auto; lia. }
    destruct (blocked && (er_succ s <? 2)); [discriminate|].
    assert (CL : lives (upd (er_clipped s) ib true) = filter (fun x => negb (x =? ib)) (lives (er_clipped s))) by (apply lives_clip; lia).
    assert (LN' : length (lives (upd (er_clipped s) ib true)) = er_n s - 1).
    { destruct (in_split _ _ IB) as (u & v & UV). pose proof (lives_nodup (er_clipped s)) as ND.
      rewrite CL, UV, filter_mid by (rewrite <- UV; auto). rewrite <- LN, UV, !app_length. cbn. lia. }
    assert (FU' : (er_n s - 1) * (length vs + 2) < fuel + 0) by nia.
    destruct randomize.
    - destruct (@next_live_any (upd (er_clipped s) ib true) (length vs) (rnd (er_draws s) mod length vs)) as (j & J1 & J2).
      + rewrite upd_length; auto.
      + apply Nat.mod_upper_bound. lia.
      + intros Z. rewrite Z in LN'. cbn in LN'. lia.
      + rewrite J1. cbn [bind]. apply IH; cbn [er_clipped er_ia er_n er_fails]; auto; try lia. rewrite upd_length; auto.
    - apply IH; cbn [er_clipped er_ia er_n er_fails]; auto; try lia; [rewrite upd_length; auto|].
      rewrite CL. apply filter_In. split; auto. apply negb_true_iff, Nat.eqb_neq. auto.
  Qed.

  Lemma ear_terminates dbg randomize vs : ear_clipping_direct cvx ins col rnd dbg randomize vs <> Diverge.
  Proof.
    unfold ear_clipping_direct. destruct (Nat.ltb_spec (length vs) 3); [discriminate|].
    apply ear_loop_total; cbn [er_clipped er_ia er_n er_fails]; rewrite ?lives_all, ?seq_length, ?repeat_length; auto; try lia.
    - apply in_seq. destruct randomize; [|lia]. pose proof (Nat.mod_upper_bound (rnd 0) (length vs)). lia.
  Qed.
End Ear.
