(** Proofs about the face predicates. *)
From Coq Require Import List Arith QArith Qabs Lqa Lia Bool.
From Verif Require Import Base Mesh Alg Transform Geo GeoSpec GeoMath GeoMathSpec GeoMathProofs Face3 Face3Spec.
Import ListNotations.
Set Implicit Arguments.
Unset Strict Implicit.
Local Open Scope Q_scope.

(** ** windows *)
Lemma rot_length A (l : list A) : length (rot l) = length l.
Proof. destruct l; cbn; [reflexivity|]. rewrite app_length. cbn. lia. Qed.
Lemma rot_nth A (l : list A) d i : (i < length l)%nat -> nth i (rot l) d = nth ((i + 1) mod length l) l d.
Proof.
  destruct l as [|a r]; cbn [length rot]; [lia|]. intros H.
  destruct (Nat.eq_dec i (length r)) as [-> | N].
  - rewrite app_nth2 by lia. replace (length r - length r)%nat with 0%nat by lia.
    replace (length r + 1)%nat with (S (length r)) by lia. rewrite Nat.mod_same by lia. reflexivity.
  - rewrite app_nth1 by lia. rewrite Nat.mod_small by lia. replace (i + 1)%nat with (S i) by lia. reflexivity.
Qed.
Lemma pairs_length A (l : list A) : length (pairs l) = length l.
Proof. destruct l as [|a r]; [reflexivity|]. unfold pairs. rewrite combine_length, app_length. cbn [length]. lia. Qed.
Lemma pairs_nth A (l : list A) d i : (i < length l)%nat ->
  nth i (pairs l) (d, d) = (nth i l d, nth ((i + 1) mod length l) l d).
Proof.
  intros H. rewrite <- rot_nth by exact H. destruct l as [|a r]; [cbn in H; lia|].
  unfold pairs. change (r ++ [a])%list with (rot (a :: r)). apply combine_nth. rewrite rot_length. reflexivity.
Qed.
Lemma triples_length A (l : list A) : length (triples l) = length l.
Proof. unfold triples. rewrite !combine_length, !rot_length. lia. Qed.
Lemma succ_mod a n : (n <> 0)%nat -> ((a mod n + 1) mod n = (a + 1) mod n)%nat.
Proof. intros H. rewrite Nat.add_mod_idemp_l by exact H. reflexivity. Qed.
Lemma triples_nth A (l : list A) d i : (i < length l)%nat ->
  nth i (triples l) (d, d, d) = (nth i l d, nth ((i + 1) mod length l) l d, nth ((i + 2) mod length l) l d).
Proof.
  intros H. unfold triples. rewrite combine_nth by (rewrite combine_length, !rot_length; lia).
  rewrite combine_nth by (rewrite rot_length; reflexivity). rewrite rot_nth by exact H.
  rewrite (rot_nth (l := rot l)) by (rewrite rot_length; exact H). rewrite rot_length.
  rewrite rot_nth by (apply Nat.mod_upper_bound; lia). rewrite succ_mod by lia.
  replace (i + 1 + 1)%nat with (i + 2)%nat by lia. reflexivity.
Qed.

Lemma all_equal_nth l : all_equal l = true <->
  forall i j, (i < length l)%nat -> (j < length l)%nat -> nth i l true = nth j l true.
Proof.
  destruct l as [|a r]; cbn [all_equal].
  - split; [intros _ i j H; cbn in H; lia|reflexivity].
  - assert (E : forallb (Bool.eqb a) r = true <-> forall i, (i < length (a :: r))%nat -> nth i (a :: r) true = a).
    { rewrite forallb_forall. split.
      - intros H [|i] Hi; [reflexivity|]. cbn in Hi |- *. symmetry. apply Bool.eqb_prop. apply H. apply nth_In. lia.
      - intros H x I. destruct (In_nth _ _ true I) as (k & K & <-). specialize (H (S k) ltac:(cbn; lia)).
        cbn in H. rewrite H. apply Bool.eqb_reflx. }
    rewrite E. split.
    + intros H i j Hi Hj. rewrite (H i Hi), (H j Hj). reflexivity.
    + intros H i Hi. rewrite (H i 0%nat Hi) by (cbn; lia). reflexivity.
Qed.

(** ** turning *)
Lemma turn_period q i : (length q <> 0)%nat -> turn q (i mod length q) = turn q i.
Proof.
  intros N. unfold turn, cyc. rewrite Nat.mod_mod by exact N.
  rewrite !Nat.add_mod_idemp_l by exact N. reflexivity.
Qed.
Lemma turn_back q i : (length q <> 0)%nat -> turn q (i + length q) = turn q i.
Proof.
  intros N. rewrite <- (turn_period (i + length q)) by exact N.
  replace (i + length q)%nat with (i + 1 * length q)%nat by lia. rewrite Nat.mod_add by exact N. apply turn_period, N.
Qed.
Lemma no_straight_ne q : no_straight q -> (length q <> 0)%nat.
Proof.
  intros H N. apply length_zero_iff_nil in N. subst q. apply (H 0%nat). unfold turn, cyc. cbn. reflexivity.
Qed.

Section Plane.
  Variables (o u v : nat -> Q).
  Notation N := (plane_normal u v).
  Lemma cross_turn a b c (p q r : pt) : in_plane o u v a p -> in_plane o u v b q -> in_plane o u v c r ->
    forall i, (i < 3)%nat -> v_cross (v_sub b a) (v_sub c a) i == orient p q r * N i.
  Proof.
    intros A B C i Hi.
    pose proof (A 0%nat ltac:(lia)). pose proof (A 1%nat ltac:(lia)). pose proof (A 2%nat ltac:(lia)).
    pose proof (B 0%nat ltac:(lia)). pose proof (B 1%nat ltac:(lia)). pose proof (B 2%nat ltac:(lia)).
    pose proof (C 0%nat ltac:(lia)). pose proof (C 1%nat ltac:(lia)). pose proof (C 2%nat ltac:(lia)).
    destruct i as [|[|[|i]]]; [| | |lia]; unfold v_cross, v_sub, orient, plane_normal; cbn [Nat.modulo Nat.divmod fst snd Nat.sub];
      rewrite H, H0, H1 || idtac; rewrite ?H, ?H0, ?H1, ?H2, ?H3, ?H4, ?H5, ?H6, ?H7; cbn; ring.
  Qed.
  Lemma inner_pos : spans u v -> 0 < inner3 N N.
  Proof.
    intros (i & Hi & Z). unfold inner3.
    assert (S : forall x : Q, 0 <= x * x) by (intros x; nra).
    assert (P : forall x : Q, ~ x == 0 -> 0 < x * x).
    { intros x X. destruct (Q_dec x 0) as [[L|L]|L]; [nra|nra|contradiction]. }
    pose proof (S (N 0%nat)). pose proof (S (N 1%nat)). pose proof (S (N 2%nat)). specialize (P _ Z).
    destruct i as [|[|[|i]]]; [lra|lra|lra|lia].
  Qed.
  Lemma planar_length l q : planar_as o u v l q -> length l = length q.
  Proof. induction 1; cbn; congruence. Qed.
  Lemma planar_nth l q d i : planar_as o u v l q -> (i < length l)%nat -> in_plane o u v (nth i l d) (nth i q (0, 0)).
  Proof.
    intros H. revert i. induction H as [|p x l q P H IH]; cbn; [lia|]. intros [|i] Hi; [exact P|]. apply IH. lia.
  Qed.
  Lemma crossed_length l : length (vertices_crossed l) = length l.
  Proof. unfold vertices_crossed. rewrite map_length. apply triples_length. Qed.
  Lemma crossed_nth l q d i : planar_as o u v l q -> (i < length l)%nat -> forall k, (k < 3)%nat ->
    nth i (vertices_crossed l) d k == turn q i * N k.
  Proof.
    intros P Hi k Hk. pose proof (planar_length P) as L.
    set (f := fun w : vec3 * vec3 * vec3 => match w with (a, b, c) => v_cross (v_sub b a) (v_sub c a) end).
    assert (E : nth i (vertices_crossed l) d = f (nth i (triples l) (d, d, d))).
    { unfold vertices_crossed. rewrite (nth_indep _ d (f (d, d, d))) by (rewrite map_length, triples_length; exact Hi).
      apply (map_nth f). }
    rewrite E. rewrite triples_nth by exact Hi. unfold f, turn, cyc. rewrite <- L. rewrite (Nat.mod_small i) by exact Hi.
    apply cross_turn; [| | |exact Hk]; apply planar_nth; try exact P; try exact Hi; apply Nat.mod_upper_bound; lia.
  Qed.
  (** the numbers whose signs are compared *)
  Lemma convex_reads pos l q : planar_as o u v l q -> exists D : nat -> Q,
    (forall i, (i < length q)%nat -> D i == turn q i * turn q (i + 1) * inner3 N N) /\
    (is_convex pos l = true <-> forall i j, (i < length q)%nat -> (j < length q)%nat -> pos (D i) = pos (D j)).
  Proof.
    intros P. pose proof (planar_length P) as L. set (c := vertices_crossed l). set (d := (fun _ => 0) : vec3).
    exists (fun i => v_dot (nth i c d) (nth ((i + 1) mod length l) c d)). split.
    - intros i Hi. rewrite <- L in Hi. assert (M : ((i + 1) mod length l < length l)%nat) by (apply Nat.mod_upper_bound; lia).
      assert (E : turn q ((i + 1) mod length l) = turn q (i + 1)) by (rewrite L; apply turn_period; lia).
      unfold v_dot, c. rewrite !(crossed_nth d P Hi) by lia. rewrite !(crossed_nth d P M) by lia.
      rewrite E. unfold inner3. ring.
    - unfold is_convex. fold c. rewrite all_equal_nth. rewrite map_length, pairs_length. unfold c. rewrite crossed_length, L. fold c.
      assert (E : forall i, (i < length q)%nat ->
        nth i (map (fun w => pos (v_dot (fst w) (snd w))) (pairs c)) true = pos (v_dot (nth i c d) (nth ((i + 1) mod length q) c d))).
      { intros i Hi. set (f := fun w : vec3 * vec3 => pos (v_dot (fst w) (snd w))).
        rewrite (nth_indep _ true (f (d, d))) by (rewrite map_length, pairs_length; unfold c; rewrite crossed_length; lia).
        rewrite (map_nth f). rewrite pairs_nth by (unfold c; rewrite crossed_length; lia).
        unfold c at 2. rewrite crossed_length, L. reflexivity. }
      split; intros H i j Hi Hj; specialize (H i j Hi Hj).
      + rewrite !E in H by assumption. exact H.
      + rewrite !E by assumption. exact H.
  Qed.

  Variable pos : Q -> bool.
  Hypothesis SP : sign_test pos.
  Hypothesis UV : spans u v.

  Lemma prod_ne x y : ~ x == 0 -> ~ y == 0 -> ~ x * y == 0.
  Proof. intros X Y Z. apply Qmult_integral in Z. tauto. Qed.
  Lemma same_from_products q : (length q <> 0)%nat -> (forall i, 0 < turn q i * turn q (i + 1)) -> same_way q.
  Proof.
    intros L H. assert (S : forall i, 0 < turn q 0 * turn q i).
    { intros i. induction i as [|i IH].
      - specialize (H 0%nat). destruct (Q_dec (turn q 0) 0) as [[X|X]|X]; [nra|nra|]. rewrite X in H. lra.
      - specialize (H i). replace (Datatypes.S i) with (i + 1)%nat by lia.
        destruct (Q_dec (turn q i) 0) as [[X|X]|X]; [nra|nra|]. rewrite X in H. lra. }
    destruct (Q_dec (turn q 0) 0) as [[X|X]|X].
    - right. intros i. specialize (S i). nra.
    - left. intros i. specialize (S i). nra.
    - specialize (S 0%nat). rewrite X in S. lra.
  Qed.
  Lemma up_to q (P : Q -> Q -> Prop) : (length q <> 0)%nat ->
    (forall i, (i < length q)%nat -> P (turn q i) (turn q (i + 1))) -> forall i, P (turn q i) (turn q (i + 1)).
  Proof.
    intros L H i. specialize (H (i mod length q) (Nat.mod_upper_bound i (length q) L)).
    rewrite turn_period in H by exact L. rewrite <- (turn_period (i mod length q + 1)) in H by exact L.
    rewrite succ_mod in H by exact L. rewrite turn_period in H by exact L. exact H.
  Qed.

  Theorem convex_iff l q : planar_as o u v l q -> no_straight q ->
    (is_convex pos l = true <-> same_way q \/ alternate q).
  Proof.
    intros P NS. pose proof (no_straight_ne NS) as L. destruct (convex_reads pos P) as (D & DE & DI). rewrite DI.
    pose proof (inner_pos UV) as NP. destruct SP as [S1 S2].
    assert (ND : forall i, (i < length q)%nat -> 0 < turn q i * turn q (i + 1) /\ pos (D i) = true \/
                                                turn q i * turn q (i + 1) < 0 /\ pos (D i) = false).
    { intros i Hi. specialize (DE i Hi). pose proof (prod_ne (NS i) (NS (i + 1)%nat)) as Z.
      destruct (Q_dec (turn q i * turn q (i + 1)) 0) as [[X|X]|X]; [right|left|contradiction].
      - split; [exact X|]. apply S2. rewrite DE. nra.
      - split; [exact X|]. apply S1. rewrite DE. nra. }
    split.
    - intros H. destruct (ND 0%nat ltac:(lia)) as [[X Y]|[X Y]].
      + left. apply same_from_products; [exact L|]. apply (up_to (P := fun a b => 0 < a * b)); [exact L|].
        intros i Hi. destruct (ND i Hi) as [[A B]|[A B]]; [exact A|]. specialize (H i 0%nat Hi ltac:(lia)). congruence.
      + right. unfold alternate. apply (up_to (P := fun a b => a * b < 0)); [exact L|].
        intros i Hi. destruct (ND i Hi) as [[A B]|[A B]]; [|exact A]. specialize (H i 0%nat Hi ltac:(lia)). congruence.
    - intros [[H|H]|H] i j Hi Hj.
      + destruct (ND i Hi) as [[A B]|[A B]], (ND j Hj) as [[A' B']|[A' B']]; try congruence; exfalso.
        * pose proof (H j). pose proof (H (j + 1)%nat). nra.
        * pose proof (H i). pose proof (H (i + 1)%nat). nra.
      + destruct (ND i Hi) as [[A B]|[A B]], (ND j Hj) as [[A' B']|[A' B']]; try congruence; exfalso.
        * pose proof (H j). pose proof (H (j + 1)%nat). nra.
        * pose proof (H i). pose proof (H (i + 1)%nat). nra.
      + destruct (ND i Hi) as [[A B]|[A B]], (ND j Hj) as [[A' B']|[A' B']]; try congruence; exfalso.
        * pose proof (H i). lra.
        * pose proof (H j). lra.
  Qed.

  Lemma alternate_even q : alternate q -> Nat.even (length q) = true.
  Proof.
    intros A. destruct (length q =? 0)%nat eqn:L; [apply Nat.eqb_eq in L; rewrite L; reflexivity|apply Nat.eqb_neq in L].
    assert (S : forall i, if Nat.even i then 0 < turn q 0 * turn q i else turn q 0 * turn q i < 0).
    { intros i. induction i as [|i IH].
      - cbn. specialize (A 0%nat). destruct (Q_dec (turn q 0) 0) as [[X|X]|X]; [nra|nra|]. rewrite X in A. lra.
      - specialize (A i). replace (Datatypes.S i) with (i + 1)%nat by lia. rewrite Nat.add_1_r, Nat.even_succ, <- Nat.negb_even.
        replace (Datatypes.S i) with (i + 1)%nat by lia.
        destruct (Nat.even i); cbn [negb]; destruct (Q_dec (turn q i) 0) as [[X|X]|X]; try nra; rewrite X in A; lra. }
    pose proof (S (length q)) as E. pose proof (S 0%nat) as Z. cbn in Z.
    pose proof (turn_back 0 L) as B. cbn [Nat.add] in B. rewrite B in E. destruct (Nat.even (length q)); [reflexivity|lra].
  Qed.
  Theorem convex_odd l q : planar_as o u v l q -> no_straight q -> Nat.odd (length q) = true ->
    (is_convex pos l = true <-> same_way q).
  Proof.
    intros P NS O. rewrite (convex_iff P NS). split; [|tauto]. intros [H|H]; [exact H|].
    apply alternate_even in H. rewrite <- Nat.negb_even, H in O. discriminate.
  Qed.
  Theorem convex_convex l q : planar_as o u v l q -> same_way q -> is_convex pos l = true.
  Proof.
    intros P S. apply (convex_iff P); [|left; exact S]. intros i. destruct S as [S|S]; specialize (S i); lra.
  Qed.
End Plane.

(** straight corners: if of two neighbouring corners at least one is straight, the answer is yes *)
Theorem convex_straight o u v pos l q : (forall x, x == 0 -> pos x = true) -> planar_as o u v l q ->
  (forall i, turn q i * turn q (i + 1) == 0) -> is_convex pos l = true.
Proof.
  intros Z P H. destruct (convex_reads pos P) as (D & DE & DI). apply DI. intros i j Hi Hj.
  rewrite (Z (D i)), (Z (D j)); [reflexivity| |].
  - rewrite (DE j Hj), H. ring.
  - rewrite (DE i Hi), H. ring.
Qed.

(** ** planarity *)
Theorem planar_panics eps l : is_planar eps l = Panic <-> (length l < 3)%nat.
Proof.
  destruct l as [|a [|b [|c r]]]; cbn; split; intros H; try reflexivity; try lia; discriminate.
Qed.
Lemma dot_in_plane o u v p0 p1 p2 p q0 q1 q2 q : in_plane o u v p0 q0 -> in_plane o u v p1 q1 -> in_plane o u v p2 q2 ->
  in_plane o u v p q -> v_dot (v_sub p p0) (v_cross (v_sub p1 p0) (v_sub p2 p0)) == 0.
Proof.
  intros A B C D. unfold v_dot. rewrite !(cross_turn A B C) by lia.
  pose proof (A 0%nat ltac:(lia)) as A0. pose proof (A 1%nat ltac:(lia)) as A1. pose proof (A 2%nat ltac:(lia)) as A2.
  pose proof (D 0%nat ltac:(lia)) as D0. pose proof (D 1%nat ltac:(lia)) as D1. pose proof (D 2%nat ltac:(lia)) as D2.
  unfold v_sub. rewrite A0, A1, A2, D0, D1, D2. unfold plane_normal. cbn [Nat.modulo Nat.divmod fst snd Nat.sub]. ring.
Qed.
Lemma Qlt_bool_iff x y : Qlt_bool x y = true <-> x < y.
Proof.
  split; [apply Qlt_bool_true|]. unfold Qlt_bool. intros H. apply negb_true_iff. destruct (Qle_bool y x) eqn:E; [|reflexivity].
  apply Qle_bool_iff in E. lra.
Qed.
Theorem planar_complete o u v l q eps : 0 < eps -> planar_as o u v l q -> (3 <= length l)%nat -> is_planar eps l = Ok true.
Proof.
  intros E P L. destruct l as [|a [|b [|c r]]]; cbn [length] in L; try lia.
  inversion P as [|x1 y1 l1 q1 P0 Q1]; subst. inversion Q1 as [|x2 y2 l2 q2 P1 Q2]; subst.
  pose proof Q2 as Q2'. inversion Q2' as [|x3 y3 l3 q3 P2 Q3]; subst.
  cbn [is_planar]. f_equal. apply forallb_forall. intros p I. apply Qlt_bool_iff.
  assert (X : exists y, in_plane o u v p y).
  { clear - Q2 I. revert I. induction Q2 as [|x y l q X Y IH]; intros I; [destruct I|]. destruct I as [<-|I]; [eauto|exact (IH I)]. }
  destruct X as (y & X). rewrite (dot_in_plane P0 P1 P2 X). exact E.
Qed.
Lemma abs_sq x e : Qabs x < e -> x * x < e * e.
Proof. intros H. apply Qabs_Qlt_condition in H. nra. Qed.
Theorem planar_sound eps p0 p1 p2 r : 0 < eps -> is_planar eps (p0 :: p1 :: p2 :: r) = Ok true ->
  let n := v_cross (v_sub p1 p0) (v_sub p2 p0) in 0 < inner3 n n ->
  forall p, In p (p0 :: p1 :: p2 :: r) -> exists x,
    inner3 (v_sub x p0) n == 0 /\ inner3 (v_sub p x) (v_sub p x) * inner3 n n < eps * eps.
Proof.
  intros E H n NN p I.
  assert (C : forall p, Qabs (inner3 (v_sub p p0) n) < eps -> exists x,
    inner3 (v_sub x p0) n == 0 /\ inner3 (v_sub p x) (v_sub p x) * inner3 n n < eps * eps).
  { clear p I. intros p B. set (s := inner3 (v_sub p p0) n / inner3 n n).
    assert (SE : s * inner3 n n == inner3 (v_sub p p0) n) by (unfold s; field; lra).
    exists (fun i => p i - s * n i). split.
    - transitivity (inner3 (v_sub p p0) n - s * inner3 n n); [unfold inner3, v_sub; ring|]. rewrite SE. ring.
    - apply abs_sq in B. rewrite <- SE in B.
      setoid_replace (inner3 (v_sub p (fun i => p i - s * n i)) (v_sub p (fun i => p i - s * n i)))
        with (s * s * inner3 n n) by (unfold inner3, v_sub; ring). lra. }
  apply C. assert (G : forallb (fun v => Qlt_bool (Qabs (v_dot (v_sub v p0) n)) eps) (p2 :: r) = true).
  { cbn [is_planar] in H. injection H as H. exact H. }
  destruct I as [<-|[<-|I]].
  - setoid_replace (inner3 (v_sub p0 p0) n) with 0 by (unfold inner3, v_sub; ring). exact E.
  - setoid_replace (inner3 (v_sub p1 p0) n) with 0 by (unfold n, inner3, v_sub, v_cross; ring). exact E.
  - rewrite forallb_forall in G. specialize (G p I). apply Qlt_bool_iff in G. exact G.
Qed.
(** whatever follows three points on a line is accepted *)
Theorem planar_collinear eps p0 p1 p2 r : 0 < eps -> (forall i, (i < 3)%nat -> v_cross (v_sub p1 p0) (v_sub p2 p0) i == 0) ->
  is_planar eps (p0 :: p1 :: p2 :: r) = Ok true.
Proof.
  intros E Z. cbn [is_planar]. f_equal. apply forallb_forall. intros p _. apply Qlt_bool_iff.
  unfold v_dot. rewrite !Z by lia.
  setoid_replace (v_sub p p0 0%nat * 0 + v_sub p p0 1%nat * 0 + v_sub p p0 2%nat * 0) with 0 by ring. exact E.
Qed.

(** ** the normal from three vertices *)
Theorem naive_normal o u v dbg pos eps l q : sign_test pos -> spans u v -> 0 < eps -> planar_as o u v l q -> same_way q ->
  (3 <= length l)%nat ->
  exists n, normal_naive dbg pos eps l = Ok n /\ forall i, (i < 3)%nat -> n i == turn q 0 * plane_normal u v i.
Proof.
  intros SP UV E P S L. pose proof (convex_convex SP UV P S) as CV. pose proof (planar_complete E P L) as PL.
  unfold normal_naive. rewrite PL, CV. replace (if dbg then Ok true else Ok true) with (Ok true) by (destruct dbg; reflexivity).
  cbn [bind]. rewrite orb_true_r. cbn [andb assert].
  destruct l as [|a [|b [|c r]]]; cbn [length] in L; try lia. eexists. split; [reflexivity|].
  inversion P as [|x1 y1 l1 q1 P0 Q1]; subst. inversion Q1 as [|x2 y2 l2 q2 P1 Q2]; subst.
  inversion Q2 as [|x3 y3 l3 q3 P2 Q3]; subst.
  intros i Hi. rewrite (cross_turn P0 P1 P2 Hi). unfold turn, cyc. rewrite !Nat.mod_small by (cbn [length]; lia). reflexivity.
Qed.

(** ** self-intersections *)
Lemma combinations_in A (l : list A) d x y : In (x, y) (combinations l) <->
  exists i j, (i < j < length l)%nat /\ nth i l d = x /\ nth j l d = y.
Proof.
  induction l as [|a l IH]; cbn [combinations length].
  - split; [intros []|]. intros (i & j & H & _). lia.
  - rewrite in_app_iff, IH, in_map_iff. split.
    + intros [(z & E & I)|(i & j & H & X & Y)].
      * injection E as <- <-. destruct (In_nth _ _ d I) as (j & J & Y). exists 0%nat, (S j). split; [lia|]. split; [reflexivity|exact Y].
      * exists (S i), (S j). split; [lia|]. split; assumption.
    + intros ([|i] & [|j] & H & X & Y); try lia.
      * left. exists y. cbn in X, Y. subst. split; [reflexivity|]. apply nth_In. lia.
      * right. exists i, j. split; [lia|]. split; assumption.
Qed.
Theorem crossing_exact eps q : 0 <= eps -> (has_self_intersections eps q = true <-> crossing eps q).
Proof.
  intros E. unfold has_self_intersections. rewrite existsb_exists.
  assert (PN : forall i, (i < length q)%nat -> nth i (pairs q) ((0, 0), (0, 0)) = (cyc q i, cyc q (i + 1))).
  { intros i Hi. rewrite pairs_nth by exact Hi. unfold cyc. rewrite (Nat.mod_small i) by exact Hi. reflexivity. }
  split.
  - intros ([[a1 a2] [b1 b2]] & I & H). apply (combinations_in _ ((0, 0), (0, 0))) in I. destruct I as (i & j & L & X & Y).
    rewrite pairs_length in L. rewrite PN in X, Y by lia. injection X as <- <-. injection Y as <- <-.
    destruct (intersect_line _ _ _ _ eps (- eps)) as [x|] eqn:Z; [|discriminate H]. pose proof (intersect_some _ _ _ _ _ _ _ E Z) as [S1 S2].
    exists i, j, x. split; [lia|]. split; [|split; assumption].
    unfold intersect_line in Z. cbv zeta in Z.
    destruct (Qle_bool (Qabs (perp_dot (vsub (cyc q (i + 1)) (cyc q i)) (vsub (cyc q (j + 1)) (cyc q j)))) eps) eqn:EP; [discriminate Z|].
    destruct (Qlt_le_dec eps (Qabs (perp_dot (vsub (cyc q (i + 1)) (cyc q i)) (vsub (cyc q (j + 1)) (cyc q j))))) as [C|C]; [exact C|].
    apply Qle_bool_iff in C. congruence.
  - intros (i & j & x & L & P & S1 & S2). exists ((cyc q i, cyc q (i + 1)), (cyc q j, cyc q (j + 1))). split.
    + apply (combinations_in _ ((0, 0), (0, 0))). exists i, j. rewrite pairs_length, !PN by lia. auto.
    + destruct (intersect_line _ _ _ _ eps (- eps)) as [z|] eqn:Z; [reflexivity|].
      destruct (intersect_none _ _ _ _ _ _ E Z) as [A|A]; [|destruct (A x); split; assumption].
      unfold perp_dot, vsub in A. cbn in A. exfalso. apply (Qlt_irrefl eps). eapply Qlt_le_trans; [exact P|exact A].
Qed.
Theorem simple_accepted eps q : 0 < eps -> simple_polygon q -> is_simple eps q = true.
Proof.
  intros E S. unfold is_simple, has_holes. cbn [negb andb]. apply negb_true_iff.
  destruct (has_self_intersections eps q) eqn:H; [|reflexivity]. apply crossing_exact in H; [|lra].
  destruct H as (i & j & x & L & P & S1 & S2).
  assert (W : forall a b, on_segment (- eps) x a b -> on_segment 0 x a b).
  { intros a b (t & T1 & T2 & X). exists t. split; [lra|]. split; [lra|exact X]. }
  destruct (S i j x L (W _ _ S1) (W _ _ S2)) as [Z _]. exfalso.
  destruct S1 as (t & T1 & T2 & X & Y). unfold same_point in Z.
  set (dx := fst (cyc q (i + 1)) - fst (cyc q i)) in *. set (dy := snd (cyc q (i + 1)) - snd (cyc q i)) in *.
  assert (D : dx == 0 /\ dy == 0).
  { destruct Z as [[ZX ZY]|[ZX ZY]].
    - assert (A : dx * t == 0) by lra. assert (B : dy * t == 0) by lra.
      apply Qmult_integral in A, B. split; [destruct A|destruct B]; lra.
    - assert (A : dx * (1 - t) == 0) by (unfold dx in *; lra). assert (B : dy * (1 - t) == 0) by (unfold dy in *; lra).
      apply Qmult_integral in A, B. split; [destruct A|destruct B]; lra. }
  destruct D as [DX DY]. rewrite DX, DY in P.
  match type of P with _ < Qabs ?z => setoid_replace z with 0 in P by ring end. cbn in P. lra.
Qed.

(** ** on a mesh *)
Section OnMesh.
  Context {FP : Type} (m : mesh (pnu Q) (curve Q) FP) (f : nat) (l : list vec3).
  Hypothesis FL : face_points m f = Ok l.
  Lemma on_convex pos : face_is_convex pos m f = Ok true <-> is_convex pos l = true.
  Proof. unfold face_is_convex. rewrite FL. cbn [bind]. split; [intros H; injection H as H; exact H|congruence]. Qed.
  Theorem face_convex_iff o u v pos q : sign_test pos -> spans u v -> planar_as o u v l q -> no_straight q ->
    (face_is_convex pos m f = Ok true <-> same_way q \/ alternate q) /\
    (Nat.odd (length q) = true -> (face_is_convex pos m f = Ok true <-> same_way q)).
  Proof.
    intros SP UV P NS. rewrite on_convex. split; [exact (convex_iff SP UV P NS)|]. intros O. exact (convex_odd SP UV P NS O).
  Qed.
  Theorem face_planar o u v q eps : 0 < eps -> planar_as o u v l q -> (3 <= length l)%nat -> face_is_planar eps m f = Ok true.
  Proof. intros. unfold face_is_planar. rewrite FL. cbn [bind]. eapply planar_complete; eassumption. Qed.
  Theorem face_planar_sound eps p0 p1 p2 r : l = p0 :: p1 :: p2 :: r -> 0 < eps -> face_is_planar eps m f = Ok true ->
    let n := v_cross (v_sub p1 p0) (v_sub p2 p0) in 0 < inner3 n n ->
    forall p, In p l -> exists x, inner3 (v_sub x p0) n == 0 /\ inner3 (v_sub p x) (v_sub p x) * inner3 n n < eps * eps.
  Proof.
    intros L E H. unfold face_is_planar in H. rewrite FL in H. cbn [bind] in H. rewrite L in H |- *. exact (planar_sound E H).
  Qed.
  Theorem face_planar_panics eps : face_is_planar eps m f = Panic <-> (length l < 3)%nat.
  Proof. unfold face_is_planar. rewrite FL. cbn [bind]. apply planar_panics. Qed.
  Theorem face_naive_normal o u v dbg pos eps q : sign_test pos -> spans u v -> 0 < eps -> planar_as o u v l q -> same_way q ->
    (3 <= length l)%nat ->
    exists n, face_normal_naive dbg pos eps m f = Ok n /\ forall i, (i < 3)%nat -> n i == turn q 0 * plane_normal u v i.
  Proof. intros. unfold face_normal_naive. rewrite FL. cbn [bind]. eapply naive_normal; eassumption. Qed.
End OnMesh.
