(** The solids over regular polygons are convex, with their faces turned outwards. *)
From Coq Require Import List Arith Lia Reals Lra Psatz.
From Verif Require Import Base Mesh Sphere SphereSpec SolidSpec Solid PartProofs Regular RegularSpec RegularTrig.
Import ListNotations.
Set Implicit Arguments.
Unset Strict Implicit.
Local Open Scope R_scope.

(** ** facets from a supporting plane *)
Lemma facet_tri pts a b e v c : vdot v (pt pts a) = c -> vdot v (pt pts b) = c -> vdot v (pt pts e) = c ->
  (forall k, (k < length pts)%nat -> ~ In k [a; b; e] -> vdot v (pt pts k) < c) ->
  0 < det3 v (vsub (pt pts b) (pt pts a)) (vsub (pt pts e) (pt pts a)) -> facet pts [a; b; e].
Proof.
  intros A B E O D. exists v, c. split; [intros i [<-|[<-|[<-|[]]]]; auto|]. split; [exact O|].
  intros i j k I K NI NJ. cbn in I. destruct I as [I|[I|[I|[]]]]; injection I as <- <-; destruct K as [<-|[<-|[<-|[]]]]; try congruence.
  - rewrite <- det_cyc. exact D.
  - rewrite det_cyc. exact D.
Qed.
Lemma facet_quad pts a b e f v c : vdot v (pt pts a) = c -> vdot v (pt pts b) = c -> vdot v (pt pts e) = c -> vdot v (pt pts f) = c ->
  (forall k, (k < length pts)%nat -> ~ In k [a; b; e; f] -> vdot v (pt pts k) < c) ->
  0 < det3 v (vsub (pt pts b) (pt pts a)) (vsub (pt pts e) (pt pts a)) ->
  0 < det3 v (vsub (pt pts b) (pt pts a)) (vsub (pt pts f) (pt pts a)) ->
  0 < det3 v (vsub (pt pts f) (pt pts e)) (vsub (pt pts a) (pt pts e)) ->
  0 < det3 v (vsub (pt pts f) (pt pts e)) (vsub (pt pts b) (pt pts e)) -> facet pts [a; b; e; f].
Proof.
  intros A B E F O D1 D2 D3 D4. exists v, c. split; [intros i [<-|[<-|[<-|[<-|[]]]]]; auto|]. split; [exact O|].
  intros i j k I K NI NJ. cbn in I. destruct I as [I|[I|[I|[I|[]]]]]; injection I as <- <-; destruct K as [<-|[<-|[<-|[<-|[]]]]]; try congruence.
  - rewrite <- det_cyc. exact D1.
  - rewrite det_cyc. exact D4.
  - rewrite det_cyc. exact D2.
  - rewrite <- det_cyc. exact D3.
Qed.
(** a ring at the top or at the bottom *)
Section Ring.
  Variables (pts : list vec3) (n o : nat) (r y s : R).
  Hypothesis N : (3 <= n)%nat.
  Hypothesis HR : r <> 0.
  Hypothesis P : forall k, (k < n)%nat -> pt pts (o + k) = rp r y (ang n s k).
  Lemma in_ring i : In i (seq o n) -> exists k, (k < n)%nat /\ i = (o + k)%nat.
  Proof. intros I. apply in_seq in I. exists (i - o)%nat. lia. Qed.
  Lemma ring_cyc i j : In (i, j) (cyc (seq o n)) -> exists k, (k < n)%nat /\ i = (o + k)%nat /\ j = (o + nxt n k)%nat.
  Proof. rewrite cyc_seq by lia. intros I. apply in_map_iff in I as (k & E & I). apply in_seq in I. injection E as <- <-. exists k. repeat split; auto; lia. Qed.
  Lemma facet_top : (forall k, (k < length pts)%nat -> ~ In k (seq o n) -> snd (fst (pt pts k)) < y) -> facet pts (seq o n).
  Proof.
    intros O. exists (0, 1, 0), y. split.
    - intros i I. apply in_ring in I as (k & K & ->). rewrite P by auto. unfold rp, vdot. ring.
    - split.
      + intros k K NI. specialize (O k K NI). destruct (pt pts k) as [[x1 x2] x3]. cbn in *. lra.
      + intros i j k C K NI NJ. apply ring_cyc in C as (i' & Hi & -> & ->). apply in_ring in K as (k' & Hk & ->).
        rewrite !P by (auto; apply nxt_lt; auto). apply ring_ccw; auto; intros ->; congruence.
  Qed.
  Lemma facet_bottom : (forall k, (k < length pts)%nat -> ~ In k (seq o n) -> y < snd (fst (pt pts k))) -> facet pts (turn (seq o n)).
  Proof.
    intros O. exists (0, -1, 0), (- y). split.
    - intros i I. apply in_turn, in_ring in I as (k & K & ->). rewrite P by auto. unfold rp, vdot. ring.
    - split.
      + intros k K NI. rewrite in_turn in NI. specialize (O k K NI). destruct (pt pts k) as [[x1 x2] x3]. cbn in *. lra.
      + intros j i k C K NI NJ. apply cyc_turn, ring_cyc in C as (i' & Hi & -> & ->). apply in_turn, in_ring in K as (k' & Hk & ->).
        rewrite !P by (auto; apply nxt_lt; auto).
        assert (G : 0 < det3 (0, 1, 0) (vsub (rp r y (ang n s (nxt n i'))) (rp r y (ang n s i'))) (vsub (rp r y (ang n s k')) (rp r y (ang n s i'))))
          by (apply ring_ccw; auto; intros ->; congruence).
        destruct (rp r y (ang n s (nxt n i'))) as [[? ?] ?], (rp r y (ang n s i')) as [[? ?] ?], (rp r y (ang n s k')) as [[? ?] ?].
        unfold det3, vsub in *. lra.
  Qed.
End Ring.
(** a side of a ring and a third point *)
Lemma side_det A B m r y d r' y' x : det3 (rp A B m) (vsub (rp r y (m + d)) (rp r y (m - d))) (vsub (rp r' y' (m + x)) (rp r y (m - d))) =
  2 * r * sin d * (A * (y' - y) + B * (r * cos d - r' * cos x)).
Proof.
  unfold rp, vsub, det3. rewrite !cos_plus, !sin_plus, !cos_minus, !sin_minus.
  pose proof (sin2_cos2 m) as M. unfold Rsqr in M.
  transitivity (2 * r * sin d * (A * (y' - y) + B * (r * cos d - r' * cos x)) * (sin m * sin m + cos m * cos m)); [ring|rewrite M; ring].
Qed.
Lemma rp_zero y a b : rp 0 y a = rp 0 y b.
Proof. unfold rp. f_equal; [f_equal|]; ring. Qed.

Lemma pos_side r s x z : 0 < r -> 0 < s -> 0 < x -> z = 2 * r * s * x -> 0 < z.
Proof. intros R S X ->. apply Rmult_lt_0_compat; auto. apply Rmult_lt_0_compat; auto. lra. Qed.

(** ** one ring below another one: the faces in between *)
Section Rings.
  Variables (pts : list vec3) (n o1 o2 : nat) (r1 y1 s1 r2 y2 s2 : R).
  Hypothesis N : (3 <= n)%nat.
  Notation d := (PI / INR n).
  Hypothesis P1 : forall k, (k < n)%nat -> pt pts (o1 + k) = rp r1 y1 (ang n s1 k).
  Hypothesis P2 : forall k, (k < n)%nat -> pt pts (o2 + k) = rp r2 y2 (ang n s2 k).

  (** the side [k] of the lower ring in terms of its middle *)
  Lemma low_a k : (k < n)%nat -> pt pts (o1 + k) = rp r1 y1 (ang n s1 k + d - d).
  Proof. intros K. rewrite P1 by auto. f_equal. ring. Qed.
  Lemma low_b k : (k < n)%nat -> pt pts (o1 + nxt n k) = rp r1 y1 (ang n s1 k + d + d).
  Proof. intros K. rewrite P1 by (apply nxt_lt; auto). rewrite rp_nxt by lia. f_equal. ring. Qed.
  Lemma high_a k : (k < n)%nat -> pt pts (o2 + k) = rp r2 y2 (ang n s2 k + d - d).
  Proof. intros K. rewrite P2 by auto. f_equal. ring. Qed.
  Lemma high_b k : (k < n)%nat -> pt pts (o2 + nxt n k) = rp r2 y2 (ang n s2 k + d + d).
  Proof. intros K. rewrite P2 by (apply nxt_lt; auto). rewrite rp_nxt by lia. f_equal. ring. Qed.

  (** a quad *)
  Lemma facet_side k A B c : s2 = s1 -> (k < n)%nat -> 0 < r1 -> 0 < r2 ->
    A * r1 * cos d + B * y1 = c -> A * r2 * cos d + B * y2 = c -> 0 < A * (y2 - y1) + B * ((r1 - r2) * cos d) ->
    (forall j, (j < length pts)%nat -> ~ In j [o1 + k; o1 + nxt n k; o2 + nxt n k; o2 + k]%nat -> vdot (rp A B (ang n s1 k + d)) (pt pts j) < c) ->
    facet pts [o1 + k; o1 + nxt n k; o2 + nxt n k; o2 + k]%nat.
  Proof.
    intros E K R1 R2 C1 C2 D O. pose proof (sin_d N) as SD. pose proof (high_a K) as HA. pose proof (high_b K) as HB. rewrite E in HA, HB.
    apply facet_quad with (rp A B (ang n s1 k + d)) c; auto; rewrite ?(low_a K), ?(low_b K), ?HA, ?HB; set (m := ang n s1 k + d).
    - rewrite rp_dot. replace (m - d - m) with (- d) by ring. rewrite cos_neg. auto.
    - rewrite rp_dot. replace (m + d - m) with d by ring. auto.
    - rewrite rp_dot. replace (m + d - m) with d by ring. auto.
    - rewrite rp_dot. replace (m - d - m) with (- d) by ring. rewrite cos_neg. auto.
    - rewrite side_det. apply (pos_side R1 SD D). ring.
    - replace (rp r2 y2 (m - d)) with (rp r2 y2 (m + - d)) by (f_equal; ring). rewrite side_det, cos_neg. apply (pos_side R1 SD D). ring.
    - replace (rp r2 y2 (m + d)) with (rp r2 y2 (m - - d)) by (f_equal; ring). replace (rp r2 y2 (m - d)) with (rp r2 y2 (m + - d)) by (f_equal; ring).
      replace (rp r1 y1 (m - d)) with (rp r1 y1 (m + - d)) by (f_equal; ring). rewrite side_det, cos_neg, sin_neg. apply (pos_side R2 SD D). ring.
    - replace (rp r2 y2 (m + d)) with (rp r2 y2 (m - - d)) by (f_equal; ring). replace (rp r2 y2 (m - d)) with (rp r2 y2 (m + - d)) by (f_equal; ring).
      rewrite side_det, cos_neg, sin_neg. apply (pos_side R2 SD D). ring.
  Qed.
  (** a triangle standing on a side of the lower ring *)
  Lemma facet_stand k q A B c r y : (k < n)%nat -> 0 < r1 -> pt pts q = rp r y (ang n s1 k + d) ->
    A * r1 * cos d + B * y1 = c -> A * r + B * y = c -> 0 < A * (y - y1) + B * (r1 * cos d - r) ->
    (forall j, (j < length pts)%nat -> ~ In j [o1 + k; o1 + nxt n k; q]%nat -> vdot (rp A B (ang n s1 k + d)) (pt pts j) < c) ->
    facet pts [o1 + k; o1 + nxt n k; q]%nat.
  Proof.
    intros K R1 Q C1 C2 D O. pose proof (sin_d N) as SD.
    apply facet_tri with (rp A B (ang n s1 k + d)) c; auto; rewrite ?(low_a K), ?(low_b K), ?Q; set (m := ang n s1 k + d).
    - rewrite rp_dot. replace (m - d - m) with (- d) by ring. rewrite cos_neg. auto.
    - rewrite rp_dot. replace (m + d - m) with d by ring. auto.
    - rewrite rp_dot. replace (m - m) with 0 by ring. rewrite cos_0. lra.
    - replace (rp r y m) with (rp r y (m + 0)) by (f_equal; ring). rewrite side_det, cos_0. apply (pos_side R1 SD D). ring.
  Qed.
  (** a triangle hanging from a side of the upper ring *)
  Lemma facet_hang k q A B c r y : (k < n)%nat -> 0 < r2 -> pt pts q = rp r y (ang n s2 k + d) ->
    A * r2 * cos d + B * y2 = c -> A * r + B * y = c -> 0 < A * (y2 - y) + B * (r - r2 * cos d) ->
    (forall j, (j < length pts)%nat -> ~ In j [q; o2 + nxt n k; o2 + k]%nat -> vdot (rp A B (ang n s2 k + d)) (pt pts j) < c) ->
    facet pts [q; o2 + nxt n k; o2 + k]%nat.
  Proof.
    intros K R2 Q C1 C2 D O. pose proof (sin_d N) as SD.
    apply facet_tri with (rp A B (ang n s2 k + d)) c; auto; rewrite ?(high_a K), ?(high_b K), ?Q; set (m := ang n s2 k + d).
    - rewrite rp_dot. replace (m - m) with 0 by ring. rewrite cos_0. lra.
    - rewrite rp_dot. replace (m + d - m) with d by ring. auto.
    - rewrite rp_dot. replace (m - d - m) with (- d) by ring. rewrite cos_neg. auto.
    - rewrite det_cyc. replace (rp r2 y2 (m + d)) with (rp r2 y2 (m - - d)) by (f_equal; ring). replace (rp r2 y2 (m - d)) with (rp r2 y2 (m + - d)) by (f_equal; ring).
      replace (rp r y m) with (rp r y (m + 0)) by (f_equal; ring). rewrite side_det, cos_0, cos_neg, sin_neg. apply (pos_side R2 SD D). ring.
  Qed.
End Rings.

(** ** the rings of the solids *)
Definition circle (r : R) (n : nat) (s y : R) : list vec3 := map (circle_at r n s y) (seq 0 n).
Lemma circle_length r n s y : length (circle r n s y) = n.
Proof. unfold circle. rewrite map_length, seq_length. auto. Qed.
Lemma pt_first r n s y l k : (k < n)%nat -> pt (circle r n s y ++ l) k = rp r y (ang n s k).
Proof. intros K. unfold pt, circle. rewrite nth_one by auto. apply circle_rp. Qed.
Lemma pt_second r n s y r' s' y' k : (k < n)%nat -> pt (circle r n s y ++ circle r' n s' y') (n + k) = rp r' y' (ang n s' k).
Proof. intros K. unfold pt, circle. rewrite nth_two by auto. apply circle_rp. Qed.
Lemma ang_half n k : (0 < n)%nat -> ang n 1 k = ang n 0 k + PI / INR n.
Proof. intros N. rewrite !ang_lin by auto. ring. Qed.

Section Solids.
  Variable n : nat.
  Hypothesis N : (3 <= n)%nat.
  Notation d := (PI / INR n).

  Lemma pyramid_convex r h : 0 < r -> 0 < h -> convex_solid (circle r n 0 0 ++ [(0, h, 0)]) (pyramid_polys n).
  Proof.
    intros HR HH. set (pts := circle r n 0 0 ++ [(0, h, 0)]).
    assert (P : forall k, (k < n)%nat -> pt pts (0 + k) = rp r 0 (ang n 0 k)) by (intros k K; apply pt_first; auto).
    assert (Q : forall a, pt pts n = rp 0 h a).
    { intros a. unfold pt, pts. rewrite app_nth2; rewrite circle_length; [|lia]. rewrite Nat.sub_diag. cbn [nth]. unfold rp. f_equal; [f_equal|]; ring. }
    assert (L : length pts = S n) by (unfold pts; rewrite app_length, circle_length; cbn; lia).
    pose proof (cos_d N) as CD. assert (HP : 0 < h * r) by (apply Rmult_lt_0_compat; auto). intros l [<-|I].
    - apply (@facet_bottom pts n 0 r 0 0); auto; [lra|]. intros k K NI. rewrite L in K. assert (k = n) as -> by (destruct (Nat.eq_dec k n); auto; exfalso; apply NI, in_seq; lia).
      rewrite (Q 0). cbn. auto.
    - rewrite fans_seq in I by lia. apply in_map_iff in I as (k & <- & K). apply in_seq in K.
      apply (@facet_stand pts n 0 r 0 0 N P k n h (r * cos d) (h * (r * cos d)) 0 h); auto; try lia; try ring.
      + nra.
      + intros j J NI. rewrite L in J. assert (j < n)%nat by (destruct (Nat.eq_dec j n); [subst; exfalso; apply NI; cbn; auto|lia]).
        change j with (0 + j)%nat. rewrite P, rp_dot by auto.
        assert (G : cos (ang n 0 j - (ang n 0 k + d)) < cos d) by (apply inner; auto; try lia; intros ->; apply NI; cbn; auto). pose proof (Rmult_lt_compat_l _ _ _ HP G). lra.
  Qed.
  Lemma frustum_convex r1 r2 h : 0 < r1 -> 0 < r2 -> 0 < h -> convex_solid (circle r1 n 0 0 ++ circle r2 n 0 h) (frustum_polys n).
  Proof.
    intros R1 R2 HH. set (pts := circle r1 n 0 0 ++ circle r2 n 0 h).
    assert (P : forall k, (k < n)%nat -> pt pts (0 + k) = rp r1 0 (ang n 0 k)) by (intros k K; apply pt_first; auto).
    assert (Q : forall k, (k < n)%nat -> pt pts (n + k) = rp r2 h (ang n 0 k)) by (intros k K; apply pt_second; auto).
    assert (L : length pts = (n + n)%nat) by (unfold pts; rewrite app_length, !circle_length; lia).
    assert (CA : forall k, (k < length pts)%nat -> (exists j, (j < n)%nat /\ k = (0 + j)%nat) \/ (exists j, (j < n)%nat /\ k = (n + j)%nat)).
    { intros k K. destruct (Nat.lt_ge_cases k n); [left; exists k|right; exists (k - n)%nat]; lia. }
    pose proof (cos_d N) as CD. intros l [<-|I]; [|apply in_app_iff in I as [I|[<-|[]]]].
    - apply (@facet_bottom pts n 0 r1 0 0); auto; [lra|]. intros k K NI. destruct (CA k K) as [(j & J & ->)|(j & J & ->)]; [exfalso; apply NI, in_seq; lia|].
      rewrite Q by auto. cbn. auto.
    - rewrite quads_seq in I by lia. apply in_map_iff in I as (k & <- & K). apply in_seq in K.
      apply (@facet_side pts n 0 n r1 0 0 r2 h 0 N P Q k h ((r1 - r2) * cos d) (h * (r1 * cos d))); auto; try lia; try ring.
      + pose proof (Rle_0_sqr ((r1 - r2) * cos d)) as G. unfold Rsqr in G. nra.
      + intros j J NI. destruct (CA j J) as [(i & I & ->)|(i & I & ->)]; [rewrite P|rewrite Q]; auto; rewrite rp_dot.
        * assert (G : cos (ang n 0 i - (ang n 0 k + d)) < cos d) by (apply inner; auto; try lia; intros ->; apply NI; cbn; auto).
          assert (HP : 0 < h * r1) by (apply Rmult_lt_0_compat; auto). pose proof (Rmult_lt_compat_l _ _ _ HP G). lra.
        * assert (G : cos (ang n 0 i - (ang n 0 k + d)) < cos d) by (apply inner; auto; try lia; intros ->; apply NI; cbn; auto).
          assert (HP : 0 < h * r2) by (apply Rmult_lt_0_compat; auto). pose proof (Rmult_lt_compat_l _ _ _ HP G). lra.
    - apply (@facet_top pts n n r2 h 0); auto; [lra|]. intros k K NI. destruct (CA k K) as [(j & J & ->)|(j & J & ->)]; [|exfalso; apply NI, in_seq; lia].
      rewrite P by auto. cbn. auto.
  Qed.
  Lemma antiprism_convex r h : 0 < r -> 0 < h -> convex_solid (circle r n 0 0 ++ circle r n 1 h) (antiprism_polys n).
  Proof.
    intros R1 HH. set (pts := circle r n 0 0 ++ circle r n 1 h).
    assert (P : forall k, (k < n)%nat -> pt pts (0 + k) = rp r 0 (ang n 0 k)) by (intros k K; apply pt_first; auto).
    assert (Q : forall k, (k < n)%nat -> pt pts (n + k) = rp r h (ang n 1 k)) by (intros k K; apply pt_second; auto).
    assert (L : length pts = (n + n)%nat) by (unfold pts; rewrite app_length, !circle_length; lia).
    assert (CA : forall k, (k < length pts)%nat -> (exists j, (j < n)%nat /\ k = (0 + j)%nat) \/ (exists j, (j < n)%nat /\ k = (n + j)%nat)).
    { intros k K. destruct (Nat.lt_ge_cases k n); [left; exists k|right; exists (k - n)%nat]; lia. }
    pose proof (cos_d N) as CD. pose proof (cos_d1 N) as C1. assert (HP : 0 < h * r) by (apply Rmult_lt_0_compat; auto).
    intros l [<-|I]; [|apply in_app_iff in I as [I|[<-|[]]]; [apply in_app_iff in I as [I|I]|]].
    - apply (@facet_bottom pts n 0 r 0 0); auto; [lra|]. intros k K NI. destruct (CA k K) as [(j & J & ->)|(j & J & ->)]; [exfalso; apply NI, in_seq; lia|].
      rewrite Q by auto. cbn. auto.
    - rewrite stands_seq in I by lia. apply in_map_iff in I as (k & <- & K). apply in_seq in K.
      apply (@facet_stand pts n 0 r 0 0 N P k (n + k)%nat h (- (r * (1 - cos d))) (h * r * cos d) r h); auto; try lia; try ring.
      + rewrite Q, ang_half by lia. auto.
      + pose proof (Rle_0_sqr (r * (1 - cos d))) as G. unfold Rsqr in G. nra.
      + intros j J NI. destruct (CA j J) as [(i & I & ->)|(i & I & ->)]; [rewrite P|rewrite Q]; auto; rewrite rp_dot.
        * assert (G : cos (ang n 0 i - (ang n 0 k + d)) < cos d) by (apply inner; auto; try lia; intros ->; apply NI; cbn; auto). pose proof (Rmult_lt_compat_l _ _ _ HP G). lra.
        * rewrite <- ang_half by lia. assert (G : cos (ang n 1 i - ang n 1 k) < 1) by (apply other; auto; try lia; intros ->; apply NI; cbn; auto). pose proof (Rmult_lt_compat_l _ _ _ HP G). lra.
    - rewrite hangs_seq in I by lia. apply in_map_iff in I as (k & <- & K). apply in_seq in K.
      assert (NK : (nxt n k < n)%nat) by (apply nxt_lt; lia).
      assert (E : forall A B, rp A B (ang n 1 k + d) = rp A B (ang n 0 (nxt n k))).
      { intros A B. rewrite rp_nxt, ang_half by lia. f_equal. ring. }
      apply (@facet_hang pts n n r h 1 N Q k (0 + nxt n k)%nat h (r * (1 - cos d)) (h * r) r 0); auto; try lia; try ring.
      + rewrite P by auto. symmetry. apply E.
      + pose proof (Rle_0_sqr (r * (1 - cos d))) as G. unfold Rsqr in G. nra.
      + intros j J NI. destruct (CA j J) as [(i & I & ->)|(i & I & ->)].
        * rewrite E, P, rp_dot by auto. assert (G : cos (ang n 0 i - ang n 0 (nxt n k)) < 1) by (apply other; auto; intros ->; apply NI; cbn; auto). pose proof (Rmult_lt_compat_l _ _ _ HP G). lra.
        * rewrite Q, rp_dot by auto.
          assert (G : cos (ang n 1 i - (ang n 1 k + d)) < cos d) by (apply inner; auto; try lia; intros ->; apply NI; cbn; auto). pose proof (Rmult_lt_compat_l _ _ _ HP G). lra.
    - apply (@facet_top pts n n r h 1); auto; [lra|]. intros k K NI. destruct (CA k K) as [(j & J & ->)|(j & J & ->)]; [|exfalso; apply NI, in_seq; lia].
      rewrite P by auto. cbn. auto.
  Qed.
End Solids.
