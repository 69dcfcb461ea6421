(** Side lengths, areas, and the meshes themselves. *)
From Coq Require Import List Arith Lia Reals Lra Psatz Setoid Ring_theory RealField.
From Verif Require Import Base DVec DVecFacts Mesh Spec Cycle MeshSpec MeshMore Rep MeshProofs MeshProofs2 MeshFacts TopoSpec BuildSpec BuildStep AlgProofs Alg AlgSpec TriSpec Solid SolidSpec IsoProofs
  PartProofs ShapeProofs SphereProofs CheckProofs Sphere SphereSpec PlatonicProofs Regular RegularSpec RegularTrig RegularProofs RegularUv RegularPlato.
Import ListNotations.
Set Implicit Arguments.
Unset Strict Implicit.
Local Arguments abs : simpl never.
Local Open Scope R_scope.

Lemma dist_sym p q : dist p q = dist q p.
Proof. destruct p as [[? ?] ?], q as [[? ?] ?]. unfold dist, vlen, vsub, vdot. f_equal. ring. Qed.
Section Lengths.
  Variable n : nat.
  Hypothesis N : (3 <= n)%nat.
  Notation d := (PI / INR n).

  Lemma rp_side r y s k : 0 < r -> dist (rp r y (ang n s k)) (rp r y (ang n s (nxt n k))) = regular_polygon_sidelength r n.
  Proof.
    intros HR. pose proof (sin_d N) as SD. unfold regular_polygon_sidelength. apply dist_sq; [apply Rlt_le, Rmult_lt_0_compat; lra|].
    rewrite rp_nxt, rp_dist by lia. replace (ang n s k + 2 * d - ang n s k) with (2 * d) by ring. rewrite cos_two. ring.
  Qed.
  Lemma ring_side pts o r y s : 0 < r -> (forall k, (k < n)%nat -> pt pts (o + k) = rp r y (ang n s k)) ->
    forall i j, In (i, j) (cyc (seq o n)) -> dist (pt pts i) (pt pts j) = regular_polygon_sidelength r n.
  Proof. intros HR P i j C. apply ring_cyc in C as (k & K & -> & ->); auto; rewrite ?Nat.add_0_l. rewrite !P by (auto; apply nxt_lt; auto). apply rp_side; auto. Qed.
  Lemma turned_side pts o r y s : 0 < r -> (forall k, (k < n)%nat -> pt pts (o + k) = rp r y (ang n s k)) ->
    forall i j, In (i, j) (cyc (turn (seq o n))) -> dist (pt pts i) (pt pts j) = regular_polygon_sidelength r n.
  Proof. intros HR P i j C. rewrite dist_sym. apply (ring_side HR P). apply cyc_turn. auto. Qed.

  (** all sides of the base have one length, all other sides another one *)
  Lemma pyramid_sides r h : 0 < r -> forall l i j, In l (pyramid_polys n) -> In (i, j) (cyc l) ->
    let pts := circle r n 0 0 ++ [(0, h, 0)] in
    dist (pt pts i) (pt pts j) = if (Nat.max i j <? n)%nat then regular_polygon_sidelength r n else sqrt (r * r + h * h).
  Proof.
    intros HR l i j I C pts.
    assert (P : forall k, (k < n)%nat -> pt pts (0 + k) = rp r 0 (ang n 0 k)) by (intros k K; apply pt_first; auto). pose proof P as P'. cbn [Nat.add] in P'.
    assert (Q : forall a, pt pts n = rp 0 h a).
    { intros a. unfold pt, pts. rewrite app_nth2; rewrite circle_length; [|lia]. rewrite Nat.sub_diag. cbn [nth]. unfold rp. f_equal; [f_equal|]; ring. }
    assert (U : forall k, (k < n)%nat -> dist (pt pts k) (pt pts n) = sqrt (r * r + h * h)).
    { intros k K. rewrite P', (Q 0) by auto. unfold dist, vlen. rewrite rp_dist. f_equal. ring. }
    destruct I as [<-|I].
    - rewrite (turned_side HR P C). apply cyc_turn, ring_cyc in C as (k & K & -> & ->); auto; rewrite ?Nat.add_0_l. pose proof (nxt_lt K).
      destruct (Nat.ltb_spec (Nat.max (nxt n k) k) n); auto; lia.
    - rewrite fans_seq in I by lia. apply in_map_iff in I as (k & <- & K). apply in_seq in K. assert (K' : (k < n)%nat) by lia. pose proof (nxt_lt K') as NK.
      cbn [cyc tl firstn app combine] in C. destruct C as [C|[C|[C|[]]]]; injection C as <- <-; rewrite ?Nat.add_0_l.
      + rewrite !P', rp_side by auto. destruct (Nat.ltb_spec (Nat.max k (nxt n k)) n); auto; lia.
      + rewrite U by auto. destruct (Nat.ltb_spec (Nat.max (nxt n k) n) n); auto; lia.
      + rewrite dist_sym, U by auto. destruct (Nat.ltb_spec (Nat.max n k) n); auto; lia.
  Qed.
  Lemma prism_sides r h : 0 < r -> 0 < h -> forall l i j, In l (frustum_polys n) -> In (i, j) (cyc l) ->
    let pts := circle r n 0 0 ++ circle r n 0 h in
    dist (pt pts i) (pt pts j) = if Bool.eqb (i <? n)%nat (j <? n)%nat then regular_polygon_sidelength r n else h.
  Proof.
    intros HR HH l i j I C pts.
    assert (P : forall k, (k < n)%nat -> pt pts (0 + k) = rp r 0 (ang n 0 k)) by (intros k K; apply pt_first; auto). pose proof P as P'. cbn [Nat.add] in P'.
    assert (Q : forall k, (k < n)%nat -> pt pts (n + k) = rp r h (ang n 0 k)) by (intros k K; apply pt_second; auto).
    assert (U : forall k, (k < n)%nat -> dist (pt pts k) (pt pts (n + k)) = h).
    { intros k K. rewrite P', Q by auto. apply dist_sq; [lra|]. rewrite rp_dist. replace (ang n 0 k - ang n 0 k) with 0 by ring. rewrite cos_0. ring. }
    assert (LT : forall a, (a < n)%nat -> (a <? n)%nat = true) by (intros a A; apply Nat.ltb_lt; lia).
    assert (GE : forall a, (n + a <? n)%nat = false) by (intros a; apply Nat.ltb_ge; lia).
    destruct I as [<-|I]; [|apply in_app_iff in I as [I|[<-|[]]]].
    - rewrite (turned_side HR P C). apply cyc_turn, ring_cyc in C as (k & K & -> & ->); auto; rewrite ?Nat.add_0_l. pose proof (nxt_lt K). rewrite !LT by auto. auto.
    - rewrite quads_seq in I by lia. apply in_map_iff in I as (k & <- & K). apply in_seq in K. assert (K' : (k < n)%nat) by lia. pose proof (nxt_lt K') as NK.
      cbn [cyc tl firstn app combine] in C. destruct C as [C|[C|[C|[C|[]]]]]; injection C as <- <-; rewrite ?Nat.add_0_l; rewrite ?GE, ?LT by auto; cbn [Bool.eqb].
      + rewrite !P' by auto. apply rp_side; auto.
      + apply U; auto.
      + rewrite dist_sym, !Q by auto. apply rp_side; auto.
      + rewrite dist_sym. apply U; auto.
    - rewrite (ring_side HR Q C). apply ring_cyc in C as (k & K & -> & ->); auto; rewrite ?Nat.add_0_l. rewrite !GE. auto.
  Qed.
  Lemma antiprism_sides r h : 0 < r -> forall l i j, In l (antiprism_polys n) -> In (i, j) (cyc l) ->
    let pts := circle r n 0 0 ++ circle r n 1 h in
    dist (pt pts i) (pt pts j) = if Bool.eqb (i <? n)%nat (j <? n)%nat then regular_polygon_sidelength r n else sqrt (2 * (r * r) * (1 - cos d) + h * h).
  Proof.
    intros HR l i j I C pts.
    assert (P : forall k, (k < n)%nat -> pt pts (0 + k) = rp r 0 (ang n 0 k)) by (intros k K; apply pt_first; auto). pose proof P as P'. cbn [Nat.add] in P'.
    assert (Q : forall k, (k < n)%nat -> pt pts (n + k) = rp r h (ang n 1 k)) by (intros k K; apply pt_second; auto).
    assert (U : forall k, (k < n)%nat -> dist (pt pts k) (pt pts (n + k)) = sqrt (2 * (r * r) * (1 - cos d) + h * h)).
    { intros k K. rewrite P', Q by auto. unfold dist, vlen. rewrite rp_dist, ang_half by lia. f_equal. replace (ang n 0 k + d - ang n 0 k) with d by ring. ring. }
    assert (V : forall k, (k < n)%nat -> dist (pt pts (nxt n k)) (pt pts (n + k)) = sqrt (2 * (r * r) * (1 - cos d) + h * h)).
    { intros k K. rewrite P', Q by (auto; apply nxt_lt; auto). unfold dist, vlen. rewrite rp_nxt, rp_dist, ang_half by lia. f_equal.
      replace (ang n 0 k + d - (ang n 0 k + 2 * d)) with (- d) by ring. rewrite cos_neg. ring. }
    assert (LT : forall a, (a < n)%nat -> (a <? n)%nat = true) by (intros a A; apply Nat.ltb_lt; lia).
    assert (GE : forall a, (n + a <? n)%nat = false) by (intros a; apply Nat.ltb_ge; lia).
    destruct I as [<-|I]; [|apply in_app_iff in I as [I|[<-|[]]]; [apply in_app_iff in I as [I|I]|]].
    - rewrite (turned_side HR P C). apply cyc_turn, ring_cyc in C as (k & K & -> & ->); auto; rewrite ?Nat.add_0_l. pose proof (nxt_lt K). rewrite !LT by auto. auto.
    - rewrite stands_seq in I by lia. apply in_map_iff in I as (k & <- & K). apply in_seq in K. assert (K' : (k < n)%nat) by lia. pose proof (nxt_lt K') as NK.
      cbn [cyc tl firstn app combine] in C. destruct C as [C|[C|[C|[]]]]; injection C as <- <-; rewrite ?Nat.add_0_l; rewrite ?GE, ?LT by auto; cbn [Bool.eqb].
      + rewrite !P' by auto. apply rp_side; auto.
      + apply V; auto.
      + rewrite dist_sym. apply U; auto.
    - rewrite hangs_seq in I by lia. apply in_map_iff in I as (k & <- & K). apply in_seq in K. assert (K' : (k < n)%nat) by lia. pose proof (nxt_lt K') as NK.
      cbn [cyc tl firstn app combine] in C. destruct C as [C|[C|[C|[]]]]; injection C as <- <-; rewrite ?Nat.add_0_l; rewrite ?GE, ?LT by auto; cbn [Bool.eqb].
      + apply U; auto.
      + rewrite dist_sym, !Q by auto. apply rp_side; auto.
      + rewrite dist_sym. apply V; auto.
    - rewrite (ring_side HR Q C). apply ring_cyc in C as (k & K & -> & ->); auto; rewrite ?Nat.add_0_l. rewrite !GE. auto.
  Qed.
  (** the height for which an antiprism has equal sides *)
  Lemma antiprism_height r h : 0 < r -> 0 < h ->
    (sides (circle r n 0 0 ++ circle r n 1 h) (antiprism_polys n) (regular_polygon_sidelength r n) <-> h * h = 2 * (r * r) * (cos d - cos (2 * d))).
  Proof.
    intros HR HH. pose proof (sin_d N) as SD. pose proof (cos_d1 N) as C1.
    assert (SP : 0 < regular_polygon_sidelength r n) by (unfold regular_polygon_sidelength; apply Rmult_lt_0_compat; lra).
    assert (SS : regular_polygon_sidelength r n * regular_polygon_sidelength r n = 2 * (r * r) * (1 - cos (2 * d))) by (unfold regular_polygon_sidelength; rewrite cos_two; ring).
    assert (PP : 0 <= 2 * (r * r) * (1 - cos d) + h * h).
    { pose proof (Rmult_lt_0_compat _ _ HR HR). pose proof (Rmult_lt_0_compat _ _ HH HH). assert (0 < 2 * (r * r) * (1 - cos d)) by (apply Rmult_lt_0_compat; lra). lra. }
    split.
    - intros S. assert (I : In [0; nxt n 0; n]%nat (antiprism_polys n)).
      { right. apply in_or_app. left. apply in_or_app. left. rewrite stands_seq by lia. apply in_map_iff. exists 0%nat. split; [cbn; repeat f_equal; lia|apply in_seq; lia]. }
      assert (C : In (n, 0)%nat (cyc [0; nxt n 0; n]%nat)) by (cbn; auto).
      pose proof (S _ _ _ I C) as E. rewrite (@antiprism_sides r h HR _ _ _ I C) in E.
      rewrite Nat.ltb_irrefl in E. replace (0 <? n)%nat with true in E by (symmetry; apply Nat.ltb_lt; lia). cbn [Bool.eqb] in E.
      assert (X : sqrt (2 * (r * r) * (1 - cos d) + h * h) * sqrt (2 * (r * r) * (1 - cos d) + h * h) = regular_polygon_sidelength r n * regular_polygon_sidelength r n) by (rewrite E; auto).
      rewrite sqrt_sqrt, SS in X by auto. lra.
    - intros E l i j I C. rewrite (@antiprism_sides r h HR _ _ _ I C). destruct (Bool.eqb _ _); auto.
      replace (2 * (r * r) * (1 - cos d) + h * h) with (regular_polygon_sidelength r n * regular_polygon_sidelength r n) by (rewrite SS, E; ring).
      apply sqrt_square. lra.
  Qed.
  Lemma antiprism_not_uniform r : 0 < r -> ~ exists s, sides (circle r n 0 0 ++ circle r n 1 (regular_polygon_sidelength r n * sqrt 3 * / 2)) (antiprism_polys n) s.
  Proof.
    intros HR (s & S). pose proof (sin_d N) as SD. pose proof (cos_d1 N) as C1. set (h := regular_polygon_sidelength r n * sqrt 3 * / 2) in *.
    assert (S3 : sqrt 3 * sqrt 3 = 3) by (apply sqrt_sqrt; lra). assert (P3 : 0 < sqrt 3) by (apply sqrt_lt_R0; lra).
    assert (SP : 0 < regular_polygon_sidelength r n) by (unfold regular_polygon_sidelength; apply Rmult_lt_0_compat; lra).
    assert (HH : 0 < h) by (unfold h; apply Rmult_lt_0_compat; [apply Rmult_lt_0_compat; auto|lra]).
    assert (s = regular_polygon_sidelength r n) as ->.
    { assert (I : In [0; nxt n 0; n]%nat (antiprism_polys n)).
      { right. apply in_or_app. left. apply in_or_app. left. rewrite stands_seq by lia. apply in_map_iff. exists 0%nat. split; [cbn; repeat f_equal; lia|apply in_seq; lia]. }
      assert (C : In (0, nxt n 0)%nat (cyc [0; nxt n 0; n]%nat)) by (cbn; auto). rewrite <- (S _ _ _ I C), (@antiprism_sides r h HR _ _ _ I C).
      replace (0 <? n)%nat with true by (symmetry; apply Nat.ltb_lt; lia). replace (nxt n 0 <? n)%nat with true by (symmetry; apply Nat.ltb_lt, nxt_lt; lia). reflexivity. }
    apply (antiprism_height HR HH) in S.
    assert (E : h * h = 3 * (r * r) * (sin d * sin d)).
    { unfold h, regular_polygon_sidelength. transitivity (r * r * (sin d * sin d) * (sqrt 3 * sqrt 3)); [field|rewrite S3; ring]. }
    rewrite E, cos_two in S. pose proof (sin2_cos2 d) as T. unfold Rsqr in T.
    assert (Z : r * r * ((1 - cos d) * (1 - cos d)) = 0) by nra.
    assert (0 < r * r * ((1 - cos d) * (1 - cos d))) by (repeat apply Rmult_lt_0_compat; lra). lra.
  Qed.
End Lengths.

(** ** areas *)
Lemma fold_sum_const {A} (f : A -> R) c l : (forall x, In x l -> f x = c) -> fold_right Rplus 0 (map f l) = INR (length l) * c.
Proof.
  induction l as [|a l IH]; intros H; [cbn; ring|]. cbn [map fold_right]. rewrite IH by (intros; apply H; cbn; auto). rewrite (H a) by (cbn; auto).
  change (length (a :: l)) with (S (length l)). rewrite S_INR. ring.
Qed.
Lemma area2_seq (f : nat -> vec3) n : (0 < n)%nat -> area2 (map f (seq 0 n)) = fold_right Rplus 0 (map (fun k => wedge (f k) (f (nxt n k))) (seq 0 n)).
Proof. intros N. unfold area2. rewrite cyc_map, cyc_seq, !map_map by auto. reflexivity. Qed.
Lemma wedge_anti p q : wedge p q = - wedge q p.
Proof. destruct p as [[? ?] ?], q as [[? ?] ?]. unfold wedge. ring. Qed.
Lemma area2_turn l : area2 (turn l) = - area2 l.
Proof.
  assert (G : forall (l : list vec3) x z, fold_right Rplus 0 (map (fun pq => wedge (fst pq) (snd pq)) (combine (x :: rev l) (rev l ++ [z]))) =
    - fold_right Rplus 0 (map (fun pq => wedge (fst pq) (snd pq)) (combine (z :: l) (l ++ [x])))).
  { clear l. induction l as [|a l IH]; intros x z.
    - cbn. rewrite (wedge_anti x z). ring.
    - cbn [rev]. rewrite app_comm_cons, combine_app by (cbn; rewrite app_length; cbn; lia).
      rewrite map_app, fold_right_app. change (map (fun pq : vec3 * vec3 => wedge (fst pq) (snd pq)) (combine [a] [z])) with [wedge a z].
      assert (F : forall l z, fold_right Rplus z l = fold_right Rplus 0 l + z) by (clear; induction l as [|b l IH]; intros z; cbn; [ring|rewrite IH; ring]).
      rewrite F, IH. rewrite (wedge_anti a z). change (combine (z :: a :: l) ((a :: l) ++ [x])) with ((z, a) :: combine (a :: l) (l ++ [x])).
      set (C := combine (a :: l) (l ++ [x])). cbn [map fold_right fst snd]. ring. }
  destruct l as [|a l]; [cbn; ring|]. cbn [turn]. unfold area2. rewrite !cyc_closed. apply G.
Qed.
Section Star.
  Variables (r1 r2 : R) (n : nat).
  Hypothesis N : (3 <= n)%nat.
  Let rad i := if Nat.odd i then r2 else r1.
  Lemma star_wedge k : (k < n)%nat -> wedge (star_point r1 r2 n k) (star_point r1 r2 n (nxt n k)) = - (rad k * rad (nxt n k) * sin (2 * PI / INR n)).
  Proof.
    intros K. assert (NP : 0 < INR n) by (apply lt_0_INR; lia). unfold star_point, wedge. fold (rad k) (rad (nxt n k)). set (x := rad k). set (y := rad (nxt n k)). clearbody x y.
    replace (sin (2 * PI / INR n)) with (sin (2 * PI / INR n * INR (nxt n k) - 2 * PI / INR n * INR k)); [rewrite sin_minus; ring|].
    unfold nxt. destruct (Nat.eqb_spec (S k) n) as [E|E].
    - assert (KN : INR n = INR k + 1) by (rewrite <- E, S_INR; auto). replace (2 * PI / INR n * INR 0 - 2 * PI / INR n * INR k) with (2 * PI / INR n - 2 * PI).
      + rewrite sin_minus, cos_2PI, sin_2PI. ring.
      + cbn [INR]. rewrite KN in *. field. lra.
    - rewrite S_INR. f_equal. ring.
  Qed.
  Lemma star_area_even : Nat.odd n = false -> area2 (turn (map (star_point r1 r2 n) (seq 0 n))) = INR n * (r1 * r2 * sin (2 * PI / INR n)).
  Proof.
    intros E. rewrite area2_turn, area2_seq by lia. rewrite (fold_sum_const (c := - (r1 * r2 * sin (2 * PI / INR n)))), seq_length; [ring|].
    intros k K. apply in_seq in K. rewrite star_wedge by lia. unfold rad. replace (Nat.odd (nxt n k)) with (negb (Nat.odd k)).
    - destruct (Nat.odd k); cbn [negb]; ring.
    - unfold nxt. destruct (Nat.eqb_spec (S k) n) as [X|X]; [|rewrite Nat.odd_succ, <- Nat.negb_odd; auto].
      rewrite <- X, Nat.odd_succ, <- Nat.negb_odd in E. rewrite E. reflexivity.
  Qed.
  Lemma star_area_odd : Nat.odd n = true -> area2 (turn (map (star_point r1 r2 n) (seq 0 n))) = (INR (n - 1) * (r1 * r2) + r1 * r1) * sin (2 * PI / INR n).
  Proof.
    intros E. rewrite area2_turn, area2_seq by lia. pose (k := (n - 1)%nat). assert (NE : n = S k) by (unfold k; lia).
    replace (seq 0 n) with (seq 0 k ++ [k]) by (rewrite NE, seq_S; reflexivity). rewrite map_app, fold_right_app. cbn [map fold_right].
    assert (F : forall l z, fold_right Rplus z l = fold_right Rplus 0 l + z) by (clear; induction l as [|b l IH]; intros z; cbn; [ring|rewrite IH; ring]).
    assert (OK : Nat.odd k = false) by (rewrite NE, Nat.odd_succ, <- Nat.negb_odd in E; destruct (Nat.odd k); auto; discriminate E).
    assert (NK : nxt n k = 0%nat) by (unfold nxt; rewrite NE, Nat.eqb_refl; auto).
    rewrite F, (fold_sum_const (c := - (r1 * r2 * sin (2 * PI / INR n)))), seq_length.
    - rewrite star_wedge, NK by lia. unfold rad. rewrite OK. fold k. cbn [Nat.odd Nat.even negb]. ring.
    - intros j J. apply in_seq in J. rewrite star_wedge by lia. unfold rad. replace (Nat.odd (nxt n j)) with (negb (Nat.odd j)).
      + destruct (Nat.odd j); cbn [negb]; ring.
      + unfold nxt. destruct (Nat.eqb_spec (S j) n) as [X|X]; [lia|]. rewrite Nat.odd_succ, <- Nat.negb_odd. auto.
  Qed.
End Star.
Lemma polygon_area r n : (3 <= n)%nat -> area2 (turn (map (star_point r r n) (seq 0 n))) = 2 * regular_polygon_area r n.
Proof.
  intros N. unfold regular_polygon_area. destruct (Nat.odd n) eqn:O; [rewrite star_area_odd|rewrite star_area_even]; auto; [|field].
  rewrite minus_INR by lia. cbn [INR]. field.
Qed.
Lemma polygon_side r n : (3 <= n)%nat -> 0 < r -> forall i j, In (i, j) (cyc (seq 0 n)) ->
  dist (pt (map (star_point r r n) (seq 0 n)) i) (pt (map (star_point r r n) (seq 0 n)) j) = regular_polygon_sidelength r n.
Proof.
  intros N HR i j C. apply ring_cyc in C as (k & K & -> & ->); auto. cbn [Nat.add]. unfold pt. rewrite !nth_ring by (auto; apply nxt_lt; auto).
  pose proof (sin_d N) as SD. unfold regular_polygon_sidelength. apply dist_sq; [apply Rlt_le, Rmult_lt_0_compat; lra|].
  assert (G : forall a, star_point r r n a = (r * sin (2 * PI / INR n * INR a), r * cos (2 * PI / INR n * INR a), 0)) by (intros a; unfold star_point; destruct (Nat.odd a); auto).
  rewrite !G. unfold vsub, vdot. set (x := 2 * PI / INR n * INR k). set (y := 2 * PI / INR n * INR (nxt n k)).
  assert (E : cos (y - x) = cos (2 * (PI / INR n))).
  { assert (NP : 0 < INR n) by (apply lt_0_INR; lia). unfold x, y, nxt. destruct (Nat.eqb_spec (S k) n) as [E|E].
    - assert (KN : INR n = INR k + 1) by (rewrite <- E, S_INR; auto). replace (2 * PI / INR n * INR 0 - 2 * PI / INR n * INR k) with (2 * (PI / INR n) - 2 * PI).
      + rewrite cos_minus, cos_2PI, sin_2PI. ring.
      + cbn [INR]. rewrite KN in *. field. lra.
    - rewrite S_INR. f_equal. field. lra. }
  rewrite cos_minus, cos_two in E. pose proof (sin2_cos2 x) as X. pose proof (sin2_cos2 y) as Y. unfold Rsqr in *.
  replace ((r * sin x - r * sin y) * (r * sin x - r * sin y) + (r * cos x - r * cos y) * (r * cos x - r * cos y) + (0 - 0) * (0 - 0))
    with (r * r * ((sin x * sin x + cos x * cos x) + (sin y * sin y + cos y * cos y) - 2 * (cos y * cos x + sin y * sin x))) by ring.
  rewrite X, Y, E. ring.
Qed.

Section PolyVertices.
  Context {VP EP FP : Type}.
  Notation mesh := (mesh VP EP FP).
  Implicit Types (m : mesh) (g : graph VP EP FP).
  Variable (dF : FP).

  Lemma chain_targets g a t : WF g -> (forall x, In x (a :: t) -> lv g x = true) -> chain (nx g) a t -> nx g (last t a) = a ->
    map (fun e => og g (tw g e)) (a :: t) = map (og g) (t ++ [a]).
  Proof.
    intros W. assert (G : forall t x z, (forall y, In y (x :: t) -> lv g y = true) -> chain (nx g) x t -> nx g (last t x) = z ->
      map (fun e => og g (tw g e)) (x :: t) = map (og g) (t ++ [z])).
    { clear a t. induction t as [|b t IH]; intros x z L C E.
      - cbn in *. rewrite <- (wf_ognx W) by auto. rewrite E. auto.
      - destruct C as [C1 C2]. rewrite last_cons in E. cbn [map app]. f_equal; [rewrite <- (wf_ognx W) by (apply L; cbn; auto); rewrite C1; auto|].
        apply IH; auto. intros y Y. apply L. right. auto. }
    intros L C E. apply G; auto.
  Qed.
  (** the vertices of a face as the code lists them, and the list of its corners *)
  Lemma poly_vertices m f l : wf m -> poly (abs m) dF f l -> exists p q, l = p ++ q /\ face_vertices m f = Ok (q ++ p).
  Proof.
    intros Wm (es & FI & <-). destruct (wf_abs Wm) as [Rp W]. destruct FI as (LF & _ & LP & FC).
    destruct (boundary_exists Wm LF) as (bl & B). rewrite (boundary_face_vertices Wm LF B). destruct B as (t & LT & ->).
    destruct es as [|e es]; [destruct LP as [_ []]|].
    assert (I : In (fe (abs m) f) (e :: es)).
    { destruct (wf_fc W _ (proj1 LP e (or_introl eq_refl)) (FC e (or_introl eq_refl))) as [_ RE].
      assert (I : In e (fe (abs m) f :: t)) by (apply (cycle_reach e (proj2 LT)); auto).
      apply (cycle_same (proj2 LT) (proj2 LP) I (or_introl eq_refl)). left. auto. }
    apply in_split in I as (p & q & E). rewrite E in LP. pose proof (loop_rot LP) as LP2. cbn [app] in LP2.
    assert (t = q ++ p) as ->.
    { destruct (face_num_edges_ok Wm LF LT) as [_ E1]. destruct (face_num_edges_ok Wm LF LP2) as [_ E2]. rewrite E2 in E1. injection E1 as E1. auto. }
    pose proof (proj2 LP2) as C. apply is_cycle_cons in C as (ND & C & CL).
    rewrite (chain_targets W (proj1 LP2) C CL). rewrite E. exists (map (og (abs m)) (p ++ [fe (abs m) f])), (map (og (abs m)) q).
    split; [rewrite <- map_app, <- app_assoc; reflexivity|]. rewrite <- map_app, app_assoc. reflexivity.
  Qed.
End PolyVertices.

(** ** the normal of the base of a prism *)
Section Normal.
  Context {EP FP : Type}.
  Notation mesh := (mesh vec3 EP FP).
  Implicit Types (c : cfg) (m : mesh) (g : graph vec3 EP FP).
  Variable (dE : EP) (dF : FP).

  Definition newellR := newell 0 Rplus Rmult Rminus (-1 / 2).
  Lemma half_neg : -1 / 2 + -1 / 2 = - 1.
  Proof. field. Qed.
  Lemma newellR_rot i p q : newellR (p ++ q) i = newellR (q ++ p) i.
  Proof. apply (newell_rotate (@eq_equivalence R) (Eq_ext Rplus Rmult Ropp) RTheory); try apply half_neg. Qed.
  Lemma newellR_rev i l : newellR (rev l) i = - newellR l i.
  Proof. apply (newell_reverse (@eq_equivalence R) (Eq_ext Rplus Rmult Ropp) RTheory); try apply half_neg. Qed.
  Lemma newellR_cross i l : newellR l i = / 2 * esum 0 Rplus (cross3 Rmult Rminus i) (poly_edges l).
  Proof. unfold newellR. rewrite (newell_cross (@eq_equivalence R) (Eq_ext Rplus Rmult Ropp) RTheory); try field; try apply half_neg. Qed.
  Lemma newellR_turn i l : newellR (turn l) i = - newellR l i.
  Proof. destruct l as [|a l]; [rewrite !newellR_cross; cbn; ring|]. cbn [turn]. rewrite <- newellR_rev. cbn [rev]. apply (newellR_rot i [a] (rev l)). Qed.

  Lemma esum_const {A} (w : A -> A -> R) x l : (forall a b, In (a, b) l -> w a b = x) -> esum 0 Rplus w l = INR (length l) * x.
  Proof.
    induction l as [|[a b] l IH]; intros H; [cbn; ring|]. cbn [esum]. rewrite IH by (intros; apply H; cbn; auto). rewrite (H a b) by (cbn; auto).
    change (length ((a, b) :: l)) with (S (length l)). rewrite S_INR. ring.
  Qed.
  Lemma poly_edges_cyc {A} (l : list A) : poly_edges l = cyc l.
  Proof. destruct l; reflexivity. Qed.
  (** the Newell normal of a ring *)
  Lemma ring_normal r n i : (3 <= n)%nat -> newellR (map coords (circle r n 0 0)) i = match i with 1%nat => regular_polygon_area r n | _ => 0 end.
  Proof.
    intros N. rewrite newellR_cross, poly_edges_cyc. unfold circle. rewrite map_map, cyc_map, cyc_seq, map_map by lia. cbn [fst snd].
    rewrite (esum_const (x := match i with 1%nat => r * r * sin (2 * PI / INR n) | _ => 0 end)).
    - rewrite map_length, seq_length. unfold regular_polygon_area. destruct i as [|[|i]]; field; apply not_0_INR; lia.
    - intros a b I. apply in_map_iff in I as (k & E & K). apply in_seq in K. pose proof (f_equal fst E) as E1. pose proof (f_equal snd E) as E2. cbn [fst snd] in E1, E2. rewrite <- E1, <- E2. clear E E1 E2. cbn [Nat.add]. rewrite !circle_rp, rp_nxt by lia.
      replace (2 * PI / INR n) with (ang n 0 k + 2 * (PI / INR n) - ang n 0 k) by (field; apply not_0_INR; lia).
      set (x := ang n 0 k). set (z := x + 2 * (PI / INR n)). rewrite sin_minus. unfold rp, coords, cross3. destruct i as [|[|i]]; ring.
  Qed.
  Lemma live_vp m v : vp (abs m) v <> None -> lvv (abs m) v = true.
  Proof.
    unfold abs. cbn [lvv vp]. unfold d_has, look. destruct (nth_error (slots (verts m)) v) as [[[k x]|]|]; cbn; auto; congruence.
  Qed.
  Lemma base_pays m vs ys : wf m -> map (vp (abs m)) vs = map Some ys -> mapM (fun v => let* x := m_vertex m v in Ok (v_pay x)) vs = Ok ys.
  Proof.
    intros Wm. destruct (wf_abs Wm) as [Rp W]. revert ys. induction vs as [|v vs IH]; intros [|y ys] E; try discriminate E; auto.
    assert (E1 : vp (abs m) v = Some y) by exact (f_equal (hd None) E). assert (E2 : map (vp (abs m)) vs = map Some ys) by exact (f_equal (@tl _) E). cbn [mapM].
    assert (LV : lvv (abs m) v = true) by (apply live_vp; rewrite E1; discriminate).
    destruct (r_vertex_live Rp _ LV) as (x & X & _ & P). rewrite X. cbn [bind]. rewrite (IH _ E2). cbn [bind]. congruence.
  Qed.
  Lemma base_normal m f vs r n : (3 <= n)%nat -> wf m -> poly (abs m) dF f (turn vs) -> map (vp (abs m)) vs = map Some (circle r n 0 0) ->
    normal3 m f = Ok (0, - regular_polygon_area r n, 0).
  Proof.
    intros N Wm PO PV. destruct (poly_vertices Wm PO) as (p & q & E & FV).
    assert (PT : map (vp (abs m)) (turn vs) = map Some (turn (circle r n 0 0))) by (rewrite <- !turn_map, PV; auto).
    rewrite E, map_app in PT. assert (X : exists p' q', turn (circle r n 0 0) = p' ++ q' /\ map (vp (abs m)) p = map Some p' /\ map (vp (abs m)) q = map Some q').
    { revert PT. generalize (turn (circle r n 0 0)) as T. clear. induction p as [|a p IH]; intros T PT; [exists [], T; auto|].
      destruct T as [|t T]; [discriminate PT|].
      assert (A : vp (abs m) a = Some t) by exact (f_equal (hd None) PT). assert (B : map (vp (abs m)) p ++ map (vp (abs m)) q = map Some T) by exact (f_equal (@tl _) PT). destruct (IH _ B) as (p' & q' & -> & C & D). exists (t :: p'), q'. cbn. rewrite C, A. auto. }
    destruct X as (p' & q' & ET & P & Q). unfold normal3. rewrite FV. cbn [bind].
    rewrite (@base_pays m (q ++ p) (q' ++ p') Wm) by (rewrite !map_app, P, Q; auto). cbn [bind]. fold newellR.
    assert (G : forall i, newellR (map coords (q' ++ p')) i = - newellR (map coords (circle r n 0 0)) i).
    { intros i. rewrite map_app, newellR_rot, <- map_app, <- ET, <- turn_map. apply newellR_turn. }
    rewrite !G, !ring_normal by auto. rewrite Ropp_0. reflexivity.
  Qed.
  Lemma area_pos r n : (3 <= n)%nat -> 0 < r -> 0 < regular_polygon_area r n.
  Proof.
    intros N HR. unfold regular_polygon_area. assert (0 < INR n) by (apply lt_0_INR; lia). repeat apply Rmult_lt_0_compat; auto; [lra|].
    replace (2 * PI / INR n) with (PI / INR n * INR 2) by (cbn; field; lra). apply sin_mul; lia.
  Qed.
  Lemma base_shift m f vs r n h : (3 <= n)%nat -> 0 < r -> wf m -> poly (abs m) dF f (turn vs) -> map (vp (abs m)) vs = map Some (circle r n 0 0) ->
    exists tr, prism_shift h m f = Ok tr /\ forall p, tr p = vadd p (0, h, 0).
  Proof.
    intros N HR Wm PO PV. pose proof (area_pos N HR) as AP. unfold prism_shift. rewrite (base_normal N Wm PO PV). cbn [bind]. eexists. split; [reflexivity|].
    intros p. cbv beta. f_equal. set (a := regular_polygon_area r n) in *.
    assert (L : vlen (0, - a, 0) = a) by (unfold vlen, vdot; replace (0 * 0 + - a * - a + 0 * 0) with (a * a) by ring; apply sqrt_square; lra).
    unfold normalize. rewrite L. destruct (Req_EM_T a 0) as [E|_]; [lra|]. unfold vdiv, vmul. apply f_equal2; [apply f_equal2|]; field; lra.
  Qed.
  Lemma circle_lift r n h : map (fun p => vadd p (0, h, 0)) (circle r n 0 0) = circle r n 0 h.
  Proof. unfold circle. rewrite map_map. apply map_ext. intros k. rewrite !circle_rp. unfold rp, vadd. f_equal; [f_equal|]; ring. Qed.

  Lemma r_prism_ok c r h n : (3 <= n)%nat -> 0 < r -> (6 * n <= capE c)%nat -> (2 * n <= capV c)%nat -> (2 + n <= capF c)%nat ->
    exists m, r_prism dE dF c r h n = Ok m /\ wf m /\ solid (abs m) dF (circle r n 0 0 ++ circle r n 0 h) (frustum_polys n) (3 * n).
  Proof.
    intros N HR A B D. pose proof (circle_length r n 0 0) as L. assert (N' : (3 <= length (circle r n 0 0))%nat) by (rewrite L; auto).
    destruct (@prism_solid_at _ _ _ dE dF c (circle r n 0 0) (prism_shift h) N') as (m & m0 & e & f & vs & tr & H1 & H2 & H3 & H4 & H5 & H6 & H7 & H8); try (rewrite L; auto; fail).
    - intros m f vs Wm PO PV. destruct (base_shift h N HR Wm PO PV) as (tr & E & _). eauto.
    - exists m. split; [exact H1|]. split; auto. destruct (base_shift h N HR H4 H5 H6) as (tr' & E & T). rewrite E in H7. injection H7 as <-.
      rewrite L in H8. rewrite (map_ext _ _ T), circle_lift in H8. exact H8.
  Qed.
  Lemma r_pyramid_ok c r h n : (3 <= n)%nat -> (4 * n <= capE c)%nat -> (S n <= capV c)%nat -> (S n <= capF c)%nat ->
    exists m : mesh, r_pyramid dE dF c r h n = Ok m /\ wf m /\ solid (abs m) dF (circle r n 0 0 ++ [(0, h, 0)]) (pyramid_polys n) (2 * n).
  Proof.
    intros N A B D. pose proof (circle_length r n 0 0) as L.
    pose proof (@pyramid_solid _ _ _ dE dF c (circle r n 0 0) (0, h, 0)) as H. cbv zeta in H. rewrite L in H. exact (H N A B D).
  Qed.
  Lemma r_frustum_ok c r1 r2 h n : (3 <= n)%nat -> (6 * n <= capE c)%nat -> (2 * n <= capV c)%nat -> (2 + n <= capF c)%nat ->
    exists m : mesh, r_frustum dE dF c r1 r2 h n false = Ok m /\ wf m /\ solid (abs m) dF (circle r1 n 0 0 ++ circle r2 n 0 h) (frustum_polys n) (3 * n).
  Proof.
    intros N A B D. pose proof (circle_length r1 n 0 0) as L.
    pose proof (@frustum_solid _ _ _ dE dF c (circle r1 n 0 0) (circle r2 n 0 h)) as H. cbv zeta in H. rewrite L in H. exact (H N (circle_length _ _ _ _) A B D).
  Qed.
  Lemma r_antiprism_ok c r h n : (3 <= n)%nat -> (8 * n <= capE c)%nat -> (2 * n <= capV c)%nat -> (2 + 2 * n <= capF c)%nat ->
    exists m : mesh, r_antiprism dE dF c r h n = Ok m /\ wf m /\ solid (abs m) dF (circle r n 0 0 ++ circle r n 1 h) (antiprism_polys n) (4 * n).
  Proof.
    intros N A B D. pose proof (circle_length r n 0 0) as L.
    pose proof (@antiprism_solid _ _ _ dE dF c (circle r n 0 0) (circle r n 1 h)) as H. cbv zeta in H. rewrite L in H. exact (H N (circle_length _ _ _ _) A B D).
  Qed.
  Lemma r_star_ok c r1 r2 n : (3 <= n)%nat -> (2 * n <= capE c)%nat -> (n <= capV c)%nat -> (1 <= capF c)%nat ->
    exists (m : mesh) e f vs, insert_regular_star dE dF c empty_mesh r1 r2 n = Ok (m, e) /\ wf m /\ exactly (lvf (abs m)) [f] /\
      poly (abs m) dF f (turn vs) /\ map (vp (abs m)) vs = map Some (map (star_point r1 r2 n) (seq 0 n)).
  Proof.
    intros N A B D. assert (L : length (map (star_point r1 r2 n) (seq 0 n)) = n) by (rewrite map_length, seq_length; auto).
    pose proof (@base_polygon _ _ _ dE dF c (map (star_point r1 r2 n) (seq 0 n)) 0 0 0) as H. cbv zeta in H. rewrite L in H.
    destruct H as (m & e & es & vs & f & E & Wm & _ & _ & P & PV & _ & _ & FI & RV); [auto|lia|lia|lia|].
    exists m, e, f, vs. split; [exact E|]. split; auto. split; [|split; auto; eexists; split; [exact FI|exact RV]].
    destruct P. auto.
  Qed.
End Normal.
