(** Correctness of the geometric predicates over the rationals. *)
From Coq Require Import QArith Qabs Qfield List Bool NArith ZArith Lia Lqa Setoid.
From Verif Require Import Base Alg GeoSpec Geo QuadProofs GeoMath GeoMathSpec.
Import ListNotations.

(** ** in-circle *)
Lemma circle_det_dist o p1 p2 p3 p :
  circle_det 0 1 Qplus Qmult Qminus Qopp p1 p2 p3 p ==
  orient p2 p3 p * dist2 o p1 - orient p1 p3 p * dist2 o p2 + orient p1 p2 p * dist2 o p3 - orient p1 p2 p3 * dist2 o p.
Proof. unfold circle_det, det4, det3, orient, dist2. cbn. ring. Qed.
Theorem circle_det_power o r p1 p2 p3 p : dist2 o p1 == r -> dist2 o p2 == r -> dist2 o p3 == r ->
  circle_det 0 1 Qplus Qmult Qminus Qopp p1 p2 p3 p == orient p1 p2 p3 * (r - dist2 o p).
Proof.
  intros H1 H2 H3. rewrite (circle_det_dist o), H1, H2, H3. unfold orient. ring.
Qed.
Lemma in_circle pos o r p1 p2 p3 p : sign_test pos -> dist2 o p1 == r -> dist2 o p2 == r -> dist2 o p3 == r ->
  0 < orient p1 p2 p3 ->
  (dist2 o p < r -> circumcircle_contains pos p1 p2 p3 p = true) /\
  (r < dist2 o p -> circumcircle_contains pos p1 p2 p3 p = false).
Proof.
  intros S H1 H2 H3 O. unfold circumcircle_contains. pose proof (circle_det_power o r p1 p2 p3 p H1 H2 H3) as E.
  split; intros H; [apply pos_pos|apply pos_neg]; auto; rewrite E; nra.
Qed.
Lemma in_circle_cw pos o r p1 p2 p3 p : sign_test pos -> dist2 o p1 == r -> dist2 o p2 == r -> dist2 o p3 == r ->
  orient p1 p2 p3 < 0 ->
  (dist2 o p < r -> circumcircle_contains pos p1 p2 p3 p = false) /\
  (r < dist2 o p -> circumcircle_contains pos p1 p2 p3 p = true).
Proof.
  intros S H1 H2 H3 O. unfold circumcircle_contains. pose proof (circle_det_power o r p1 p2 p3 p H1 H2 H3) as E.
  split; intros H; [apply pos_neg|apply pos_pos]; auto; rewrite E; nra.
Qed.
(** a non-degenerate triangle has a circumcentre *)
Lemma circumcentre p1 p2 p3 : ~ orient p1 p2 p3 == 0 -> exists o, dist2 o p1 == dist2 o p2 /\ dist2 o p1 == dist2 o p3.
Proof.
  destruct p1 as [x1 y1], p2 as [x2 y2], p3 as [x3 y3]. unfold orient. cbn. intros O.
  set (b := (x2 - x1) * (x2 - x1) + (y2 - y1) * (y2 - y1)). set (c := (x3 - x1) * (x3 - x1) + (y3 - y1) * (y3 - y1)).
  set (d := (x2 - x1) * (y3 - y1) - (y2 - y1) * (x3 - x1)).
  exists (x1 + (b * (y3 - y1) - c * (y2 - y1)) / (2 * d), y1 + ((x2 - x1) * c - (x3 - x1) * b) / (2 * d)).
  unfold dist2; cbn. unfold b, c, d. split; field; auto.
Qed.

(** ** triangles *)
Lemma bary_orient a b c : barycentric_sign a b c == orient a b c.
Proof. unfold barycentric_sign, perp_dot, vsub, orient. cbn. ring. Qed.
Lemma orient_sum p a b c : orient p a b + orient p b c + orient p c a == orient a b c.
Proof. unfold orient. ring. Qed.
Lemma orient_comb_x p a b c :
  orient a b c * fst p == orient p b c * fst a + orient p c a * fst b + orient p a b * fst c.
Proof. unfold orient. ring. Qed.
Lemma orient_comb_y p a b c :
  orient a b c * snd p == orient p b c * snd a + orient p c a * snd b + orient p a b * snd c.
Proof. unfold orient. ring. Qed.
Lemma combination_orient (ok : Q -> Prop) p a b c : ~ orient a b c == 0 -> (forall x y, x == y -> ok x -> ok y) ->
  combination ok p a b c <-> ok (orient p b c / orient a b c) /\ ok (orient p c a / orient a b c) /\ ok (orient p a b / orient a b c).
Proof.
  intros O Ext. split.
  - intros (u & v & w & U & V & W & S & X & Y).
    assert (Hw : w == 1 - u - v) by lra.
    assert (A : orient p b c == u * orient a b c).
    { unfold orient. rewrite X, Y, Hw. ring. }
    assert (B : orient p c a == v * orient a b c).
    { unfold orient. rewrite X, Y, Hw. ring. }
    assert (C : orient p a b == w * orient a b c).
    { unfold orient. rewrite X, Y, Hw. ring. }
    split; [|split].
    + apply (Ext u); [|exact U]. rewrite A. field. exact O.
    + apply (Ext v); [|exact V]. rewrite B. field. exact O.
    + apply (Ext w); [|exact W]. rewrite C. field. exact O.
  - intros (U & V & W). exists (orient p b c / orient a b c), (orient p c a / orient a b c), (orient p a b / orient a b c).
    split; [exact U|]. split; [exact V|]. split; [exact W|]. split; [|split].
    + rewrite <- (orient_sum p a b c) in *. field. exact O.
    + transitivity (orient a b c * fst p / orient a b c); [field; exact O|]. rewrite orient_comb_x. field. exact O.
    + transitivity (orient a b c * snd p / orient a b c); [field; exact O|]. rewrite orient_comb_y. field. exact O.
Qed.
Lemma div_pos x y : 0 < y -> (0 < x / y <-> 0 < x).
Proof.
  intros H. split; intros K.
  - assert (E : x == x / y * y) by (field; lra). rewrite E. nra.
  - apply Qlt_shift_div_l; lra.
Qed.
Lemma div_neg x y : y < 0 -> (0 < x / y <-> x < 0).
Proof.
  intros H. assert (E : x / y == (- x) / (- y)) by (field; lra). rewrite E, div_pos by lra. split; lra.
Qed.
Lemma div_pos_le x y : 0 < y -> (0 <= x / y <-> 0 <= x).
Proof.
  intros H. split; intros K.
  - assert (E : x == x / y * y) by (field; lra). rewrite E. nra.
  - apply Qle_shift_div_l; lra.
Qed.
Lemma div_neg_le x y : y < 0 -> (0 <= x / y <-> x <= 0).
Proof.
  intros H. assert (E : x / y == (- x) / (- y)) by (field; lra). rewrite E, div_pos_le by lra. split; lra.
Qed.
Definition neg_test (neg : Q -> bool) : Prop := sign_test (fun x => neg (- x)).
Lemma strict_orient p a b c : ~ orient a b c == 0 -> strictly_inside p a b c <->
  (0 < orient a b c /\ 0 < orient p b c /\ 0 < orient p c a /\ 0 < orient p a b) \/
  (orient a b c < 0 /\ orient p b c < 0 /\ orient p c a < 0 /\ orient p a b < 0).
Proof.
  intros O. unfold strictly_inside. rewrite combination_orient; auto; [|intros; lra].
  destruct (Qlt_le_dec 0 (orient a b c)) as [L|L].
  - rewrite !div_pos by exact L. split; [intuition|]. intros [H|H]; [intuition|lra].
  - assert (L' : orient a b c < 0) by lra. rewrite !div_neg by exact L'. split; [intuition|]. intros [H|H]; [lra|intuition].
Qed.
Lemma weak_orient p a b c : ~ orient a b c == 0 -> weakly_inside p a b c <->
  (0 < orient a b c /\ 0 <= orient p b c /\ 0 <= orient p c a /\ 0 <= orient p a b) \/
  (orient a b c < 0 /\ orient p b c <= 0 /\ orient p c a <= 0 /\ orient p a b <= 0).
Proof.
  intros O. unfold weakly_inside. rewrite combination_orient; auto; [|intros; lra].
  destruct (Qlt_le_dec 0 (orient a b c)) as [L|L].
  - rewrite !div_pos_le by exact L. split; [intuition|]. intros [H|H]; [intuition|lra].
  - assert (L' : orient a b c < 0) by lra. rewrite !div_neg_le by exact L'. split; [intuition|]. intros [H|H]; [lra|intuition].
Qed.
Section Inside.
  Variables (pos neg : Q -> bool).
  Hypothesis SP : sign_test pos.
  Hypothesis SN : neg_test neg.
  Lemma neg_true x : x < 0 -> neg x = true.
  Proof. intros H. destruct SN as [N _]. specialize (N (- x)). cbn in N. assert (E : neg (- - x) = true) by (apply N; lra).
    revert E. destruct x as [n d]. unfold Qopp. cbn. rewrite Z.opp_involutive. auto. Qed.
  Lemma neg_false x : 0 < x -> neg x = false.
  Proof. intros H. destruct SN as [_ N]. specialize (N (- x)). cbn in N. assert (E : neg (- - x) = false) by (apply N; lra).
    revert E. destruct x as [n d]. unfold Qopp. cbn. rewrite Z.opp_involutive. auto. Qed.
  Lemma pos_ge x : pos x = true -> 0 <= x.
  Proof. intros H. destruct (Qlt_le_dec x 0) as [L|L]; [|exact L]. rewrite (pos_neg pos x SP L) in H. discriminate. Qed.
  Lemma neg_le x : neg x = true -> x <= 0.
  Proof. intros H. destruct (Qlt_le_dec 0 x) as [L|L]; [|exact L]. rewrite (neg_false x L) in H. discriminate. Qed.
  (** whatever the sign tests say at zero: strictly inside is accepted, strictly outside is rejected *)
  Theorem inside_sound p a b c : ~ orient a b c == 0 ->
    (strictly_inside p a b c -> is_inside_triangle pos neg p a b c = true) /\
    (is_inside_triangle pos neg p a b c = true -> weakly_inside p a b c).
  Proof.
    intros O. rewrite strict_orient, weak_orient by exact O. unfold is_inside_triangle.
    pose proof (bary_orient p a b) as B1. pose proof (bary_orient p b c) as B2. pose proof (bary_orient p c a) as B3.
    pose proof (orient_sum p a b c) as S.
    split.
    - intros [(H & A & B & C)|(H & A & B & C)].
      + rewrite !(fun x => pos_pos pos x SP) by lra. reflexivity.
      + rewrite !neg_true by lra. apply orb_true_r.
    - intros H. apply orb_true_iff in H. destruct H as [H|H]; apply andb_true_iff in H; destruct H as [H H3];
        apply andb_true_iff in H; destruct H as [H1 H2].
      + apply pos_ge in H1, H2, H3. left. repeat split; lra.
      + apply neg_le in H1, H2, H3. right. repeat split; lra.
  Qed.
  (** with strict tests: exactly the strict interior *)
  Theorem inside_exact p a b c : (forall x, pos x = true -> 0 < x) -> (forall x, neg x = true -> x < 0) ->
    ~ orient a b c == 0 -> (is_inside_triangle pos neg p a b c = true <-> strictly_inside p a b c).
  Proof.
    intros P N O. split; [|apply inside_sound; exact O].
    rewrite strict_orient by exact O. unfold is_inside_triangle.
    pose proof (bary_orient p a b) as B1. pose proof (bary_orient p b c) as B2. pose proof (bary_orient p c a) as B3.
    pose proof (orient_sum p a b c) as S.
    intros H. apply orb_true_iff in H. destruct H as [H|H]; apply andb_true_iff in H; destruct H as [H H3];
      apply andb_true_iff in H; destruct H as [H1 H2].
    - apply P in H1, H2, H3. left. repeat split; lra.
    - apply N in H1, H2, H3. right. repeat split; lra.
  Qed.
End Inside.

(** ** segments *)
Lemma Qlt_bool_false x y : Qlt_bool x y = false -> y <= x.
Proof. unfold Qlt_bool. intros H. apply negb_false_iff in H. apply Qle_bool_iff. exact H. Qed.
Lemma Qlt_bool_true x y : Qlt_bool x y = true -> x < y.
Proof.
  unfold Qlt_bool. intros H. apply negb_true_iff in H. destruct (Qlt_le_dec x y) as [L|L]; [exact L|].
  apply Qle_bool_iff in L. congruence.
Qed.
Lemma rxs_ne r eps : 0 <= eps -> Qle_bool (Qabs r) eps = false -> ~ r == 0.
Proof.
  intros E H Z. assert (L : Qabs r <= eps) by (rewrite Z; exact E). apply Qle_bool_iff in L. congruence.
Qed.
Theorem intersect_some p0 p1 q0 q1 eps eps2 x : 0 <= eps -> intersect_line p0 p1 q0 q1 eps eps2 = Some x ->
  on_segment eps2 x p0 p1 /\ on_segment eps2 x q0 q1.
Proof.
  unfold intersect_line. intros E H. cbv zeta in H.
  destruct (Qle_bool (Qabs (perp_dot (vsub p1 p0) (vsub q1 q0))) eps) eqn:E0; [discriminate|].
  destruct (Qlt_bool (perp_dot (vsub q0 p0) (vsub q1 q0) / perp_dot (vsub p1 p0) (vsub q1 q0)) (- eps2)) eqn:E1; [discriminate|].
  destruct (Qlt_bool (eps2 + 1) (perp_dot (vsub q0 p0) (vsub q1 q0) / perp_dot (vsub p1 p0) (vsub q1 q0))) eqn:E2; [discriminate|].
  destruct (Qlt_bool (perp_dot (vsub q0 p0) (vsub p1 p0) / perp_dot (vsub p1 p0) (vsub q1 q0)) (- eps2)) eqn:E3; [discriminate|].
  destruct (Qlt_bool (eps2 + 1) (perp_dot (vsub q0 p0) (vsub p1 p0) / perp_dot (vsub p1 p0) (vsub q1 q0))) eqn:E4; [discriminate|].
  cbn [orb] in H. injection H as <-. pose proof (rxs_ne _ _ E E0) as NZ.
  apply Qlt_bool_false in E1, E2, E3, E4. split.
  - eexists. split; [exact E1|]. split; [lra|]. cbn. split; reflexivity.
  - eexists. split; [exact E3|]. split; [lra|]. unfold perp_dot, vsub in *. cbn in *. split; field; exact NZ.
Qed.
(** [None] although not (nearly) parallel: no common point; with zero tolerance this is a complete test *)
Theorem intersect_none p0 p1 q0 q1 eps eps2 : 0 <= eps ->
  intersect_line p0 p1 q0 q1 eps eps2 = None ->
  Qabs (perp_dot (vsub p1 p0) (vsub q1 q0)) <= eps \/ forall x, ~ (on_segment eps2 x p0 p1 /\ on_segment eps2 x q0 q1).
Proof.
  unfold intersect_line. intros E H. cbv zeta in H.
  destruct (Qle_bool (Qabs (perp_dot (vsub p1 p0) (vsub q1 q0))) eps) eqn:E0; [left; apply Qle_bool_iff; exact E0|right].
  pose proof (rxs_ne _ _ E E0) as NZ.
  intros x ((t & T1 & T2 & TX & TY) & (u & U1 & U2 & UX & UY)).
  assert (Ht : perp_dot (vsub q0 p0) (vsub q1 q0) / perp_dot (vsub p1 p0) (vsub q1 q0) == t).
  { assert (G : perp_dot (vsub q0 p0) (vsub q1 q0) == t * perp_dot (vsub p1 p0) (vsub q1 q0)).
    { unfold perp_dot, vsub in *. cbn in *.
      setoid_replace (fst q0 - fst p0) with ((fst p1 - fst p0) * t - (fst q1 - fst q0) * u) by lra.
      setoid_replace (snd q0 - snd p0) with ((snd p1 - snd p0) * t - (snd q1 - snd q0) * u) by lra. ring. }
    rewrite G. field. exact NZ. }
  assert (Hu : perp_dot (vsub q0 p0) (vsub p1 p0) / perp_dot (vsub p1 p0) (vsub q1 q0) == u).
  { assert (G : perp_dot (vsub q0 p0) (vsub p1 p0) == u * perp_dot (vsub p1 p0) (vsub q1 q0)).
    { unfold perp_dot, vsub in *. cbn in *.
      setoid_replace (fst q0 - fst p0) with ((fst p1 - fst p0) * t - (fst q1 - fst q0) * u) by lra.
      setoid_replace (snd q0 - snd p0) with ((snd p1 - snd p0) * t - (snd q1 - snd q0) * u) by lra. ring. }
    rewrite G. field. exact NZ. }
  destruct (Qlt_bool (perp_dot (vsub q0 p0) (vsub q1 q0) / perp_dot (vsub p1 p0) (vsub q1 q0)) (- eps2)) eqn:E1;
    [apply Qlt_bool_true in E1; lra|].
  destruct (Qlt_bool (eps2 + 1) (perp_dot (vsub q0 p0) (vsub q1 q0) / perp_dot (vsub p1 p0) (vsub q1 q0))) eqn:E2;
    [apply Qlt_bool_true in E2; lra|].
  destruct (Qlt_bool (perp_dot (vsub q0 p0) (vsub p1 p0) / perp_dot (vsub p1 p0) (vsub q1 q0)) (- eps2)) eqn:E3;
    [apply Qlt_bool_true in E3; lra|].
  destruct (Qlt_bool (eps2 + 1) (perp_dot (vsub q0 p0) (vsub p1 p0) / perp_dot (vsub p1 p0) (vsub q1 q0))) eqn:E4;
    [apply Qlt_bool_true in E4; lra|].
  discriminate H.
Qed.
