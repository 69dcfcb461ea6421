(** Points on circles around the y-axis: distances, planes and orientations. *)
From Coq Require Import List Arith Lia Reals Lra Psatz.
From Verif Require Import Base Mesh Sphere SphereSpec SolidSpec Solid PartProofs Regular RegularSpec.
Import ListNotations.
Set Implicit Arguments.
Unset Strict Implicit.
Local Open Scope R_scope.

(** ** indices around a ring *)
Lemma combine_app {A B} (l l2 : list A) (k k2 : list B) : length l = length k -> combine (l ++ l2) (k ++ k2) = combine l k ++ combine l2 k2.
Proof. revert k. induction l as [|a l IH]; intros [|b k] H; try discriminate H; cbn; auto. injection H as H. rewrite IH; auto. Qed.
Definition nxt (n k : nat) : nat := if Nat.eqb (S k) n then 0%nat else S k.
Lemma nxt_lt n k : (k < n)%nat -> (nxt n k < n)%nat.
Proof. unfold nxt. destruct (Nat.eqb_spec (S k) n); lia. Qed.
Lemma cyc_seq s n : (0 < n)%nat -> cyc (seq s n) = map (fun k => (s + k, s + nxt n k)%nat) (seq 0 n).
Proof.
  intros N. destruct n as [|n]; [lia|]. change (cyc (s :: seq (S s) n) = map (fun k => (s + k, s + nxt (S n) k)%nat) (seq 0 (S n))).
  rewrite cyc_closed, (seq_S n 0), map_app. change (s :: seq (S s) n) with (seq s (S n)). rewrite (seq_S n s).
  rewrite (@combine_app _ _ (seq s n) [s + n]%nat (seq (S s) n) [s]) by (rewrite !seq_length; reflexivity). f_equal.
  - assert (G : forall a b, combine (seq (s + a) b) (seq (s + S a) b) = map (fun k => (s + k, s + S k)%nat) (seq a b)).
    { intros a b. revert a. induction b as [|b IH]; intros a; [reflexivity|]. cbn [seq combine map]. f_equal.
      rewrite <- !Nat.add_succ_r. apply IH. }
    specialize (G 0%nat n). rewrite Nat.add_0_r, Nat.add_1_r in G. rewrite G. apply map_ext_in.
    intros k I. apply in_seq in I. unfold nxt. destruct (Nat.eqb_spec (S k) (S n)); [lia|reflexivity].
  - cbn [combine map]. unfold nxt. rewrite Nat.eqb_refl. cbn. rewrite Nat.add_0_r. reflexivity.
Qed.
Lemma combine_map2 {A B C} (f : A -> B) (g : A -> C) l : combine (map f l) (map g l) = map (fun x => (f x, g x)) l.
Proof. induction l; cbn; congruence. Qed.
Lemma quads_seq a b n : (0 < n)%nat -> quads (seq a n) (seq b n) = map (fun k => [a + k; a + nxt n k; b + nxt n k; b + k]%nat) (seq 0 n).
Proof. intros N. unfold quads. rewrite !cyc_seq, combine_map2, map_map by auto. reflexivity. Qed.
Lemma stands_seq a b n : (0 < n)%nat -> stands (seq a n) (seq b n) = map (fun k => [a + k; a + nxt n k; b + k]%nat) (seq 0 n).
Proof. intros N. unfold stands. rewrite !cyc_seq, combine_map2, map_map by auto. reflexivity. Qed.
Lemma hangs_seq a b n : (0 < n)%nat -> hangs (seq a n) (seq b n) = map (fun k => [a + nxt n k; b + nxt n k; b + k]%nat) (seq 0 n).
Proof. intros N. unfold hangs. rewrite !cyc_seq, combine_map2, map_map by auto. reflexivity. Qed.
Lemma fans_seq a n v : (0 < n)%nat -> fans (seq a n) v = map (fun k => [a + k; a + nxt n k; v]%nat) (seq 0 n).
Proof. intros N. unfold fans. rewrite cyc_seq, map_map by auto. reflexivity. Qed.
Lemma cyc_turn {A} (l : list A) i j : In (i, j) (cyc (turn l)) -> In (j, i) (cyc l).
Proof.
  destruct l as [|a l]; [intros []|]. cbn [turn]. rewrite !cyc_closed.
  assert (G : forall (l : list A) x z, In (i, j) (combine (x :: rev l) (rev l ++ [z])) -> In (j, i) (combine (z :: l) (l ++ [x]))).
  { clear. induction l as [|y l IH] using rev_ind; intros x z H.
    - cbn in *. destruct H as [H|[]]. injection H as <- <-. auto.
    - rewrite rev_app_distr in H. cbn [rev app combine] in H. destruct H as [H|H].
      + injection H as <- <-. rewrite <- app_assoc. cbn [app]. change (z :: l ++ [y]) with ((z :: l) ++ [y]).
        destruct (@exists_last _ (z :: l)) as (l' & w & E); [discriminate|].
        assert (L : length (z :: l) = length (l ++ [y])) by (rewrite app_length; cbn; lia).
        replace (l ++ [y; x]) with ((l ++ [y]) ++ [x]) by (rewrite <- app_assoc; reflexivity).
        rewrite combine_app by exact L. apply in_app_iff. right. cbn. auto.
      + apply IH in H.
        assert (L : length (z :: l) = length (l ++ [y])) by (rewrite app_length; cbn; lia).
        change (z :: l ++ [y]) with ((z :: l) ++ [y]). rewrite combine_app by exact L. apply in_app_iff. left. exact H. }
  apply G.
Qed.
Lemma in_turn {A} (l : list A) x : In x (turn l) <-> In x l.
Proof. destruct l as [|a l]; cbn; [tauto|]. rewrite <- in_rev. tauto. Qed.
Lemma nth_ring {A} (f : nat -> A) n k d : (k < n)%nat -> nth k (map f (seq 0 n)) d = f k.
Proof. intros H. rewrite (nth_indep _ d (f 0%nat)) by (rewrite map_length, seq_length; auto). rewrite map_nth, seq_nth; auto. Qed.
Lemma nth_two {A} (f g : nat -> A) n m k d : (k < m)%nat -> nth (n + k) (map f (seq 0 n) ++ map g (seq 0 m)) d = g k.
Proof.
  intros H. rewrite app_nth2 by (rewrite map_length, seq_length; lia). rewrite map_length, seq_length.
  replace (n + k - n)%nat with k by lia. apply nth_ring; auto.
Qed.
Lemma nth_one {A} (f : nat -> A) n k l d : (k < n)%nat -> nth k (map f (seq 0 n) ++ l) d = f k.
Proof. intros H. rewrite app_nth1 by (rewrite map_length, seq_length; auto). apply nth_ring; auto. Qed.

(** ** points on a ring *)
Definition rp (r y a : R) : vec3 := (r * cos a, y, - r * sin a).
Definition ang (n : nat) (s : R) (k : nat) : R := PI * (INR (2 * k) + s) / INR n.
Lemma circle_rp r n s y k : circle_at r n s y k = rp r y (ang n s k).
Proof. reflexivity. Qed.
Lemma ang_lin n s k : (0 < n)%nat -> ang n s k = PI / INR n * (2 * INR k + s).
Proof. intros N. unfold ang. rewrite mult_INR. change (INR 2) with 2. field. apply not_0_INR. lia. Qed.
Lemma rp_period r y a : rp r y (a + 2 * PI) = rp r y a.
Proof. unfold rp. rewrite cos_plus, sin_plus, cos_2PI, sin_2PI. f_equal; [f_equal|]; ring. Qed.
(** the next point on the ring *)
Lemma rp_nxt n s r y k : (0 < n)%nat -> rp r y (ang n s (nxt n k)) = rp r y (ang n s k + 2 * (PI / INR n)).
Proof.
  intros N. unfold nxt. destruct (Nat.eqb_spec (S k) n) as [E|E].
  - rewrite <- (rp_period r y (ang n s 0)). f_equal. rewrite !ang_lin by auto.
    assert (K : INR k = INR n - 1) by (rewrite <- E, S_INR; ring). rewrite K. cbn [INR]. field. apply not_0_INR. lia.
  - f_equal. rewrite !ang_lin by auto. rewrite S_INR. ring.
Qed.
Lemma rp_dot A B m r y a : vdot (rp A B m) (rp r y a) = A * r * cos (a - m) + B * y.
Proof. unfold rp, vdot. rewrite cos_minus. ring. Qed.
Lemma rp_dist r y a r' y' b : vdot (vsub (rp r y a) (rp r' y' b)) (vsub (rp r y a) (rp r' y' b)) =
  r * r + r' * r' - 2 * r * r' * cos (b - a) + (y - y') * (y - y').
Proof.
  unfold rp, vsub, vdot. rewrite cos_minus. pose proof (sin2_cos2 a) as A. pose proof (sin2_cos2 b) as B. unfold Rsqr in *.
  transitivity (r * r * (sin a * sin a + cos a * cos a) + r' * r' * (sin b * sin b + cos b * cos b) - 2 * r * r' * (cos b * cos a + sin b * sin a) + (y - y') * (y - y')); [ring|].
  rewrite A, B. ring.
Qed.
Lemma det_cyc v p q r : det3 v (vsub q p) (vsub r p) = det3 v (vsub r q) (vsub p q).
Proof. destruct v as [[? ?] ?], p as [[? ?] ?], q as [[? ?] ?], r as [[? ?] ?]. unfold det3, vsub. ring. Qed.

(** ** angles *)
Section Angle.
  Variable n : nat.
  Hypothesis N : (3 <= n)%nat.
  Notation d := (PI / INR n).
  Lemma n_pos : 0 < INR n.
  Proof. apply lt_0_INR. lia. Qed.
  Lemma d_pos : 0 < d.
  Proof. apply Rdiv_lt_0_compat; [apply PI_RGT_0|apply n_pos]. Qed.
  Lemma d_n : d * INR n = PI.
  Proof. field. pose proof n_pos. lra. Qed.
  Lemma d_mul k : (0 < k)%nat -> (k < n)%nat -> 0 < d * INR k < PI.
  Proof.
    intros A B. pose proof d_pos as D. split; [apply Rmult_lt_0_compat; auto; apply lt_0_INR; auto|].
    apply Rlt_le_trans with (d * INR n); [|rewrite d_n; lra]. apply Rmult_lt_compat_l; auto. apply lt_INR; auto.
  Qed.
  Lemma sin_mul k : (0 < k)%nat -> (k < n)%nat -> 0 < sin (d * INR k).
  Proof. intros A B. destruct (d_mul A B). apply sin_gt_0; auto. Qed.
  Lemma sin_d : 0 < sin d.
  Proof. rewrite <- (Rmult_1_r d). change 1 with (INR 1). apply sin_mul; lia. Qed.
  Lemma cos_d : 0 < cos d.
  Proof.
    pose proof d_pos as D. assert (H : 2 * d < PI).
    { apply Rlt_le_trans with (d * INR n); [|rewrite d_n; lra]. rewrite (Rmult_comm 2). apply Rmult_lt_compat_l; auto. change 2 with (INR 2). apply lt_INR. lia. }
    apply cos_gt_0; lra.
  Qed.
  Lemma cos_d1 : cos d < 1.
  Proof. pose proof sin_d as A. pose proof cos_d as B. pose proof (sin2_cos2 d) as E. unfold Rsqr in E. nra. Qed.
  (** the sign of the sine at the corners beyond a side *)
  Lemma far i k : (i < n)%nat -> (k < n)%nat -> k <> i -> k <> nxt n i -> 0 < sin (d * (INR k - INR i)) * sin (d * (INR k - INR i - 1)).
  Proof.
    intros I K A B. destruct (Nat.lt_ge_cases i k) as [L|L].
    - assert (S k <> n \/ S i <> n) by lia. assert (k <> S i) by (unfold nxt in B; destruct (Nat.eqb_spec (S i) n); lia).
      replace (INR k - INR i) with (INR (k - i)) by (rewrite minus_INR by lia; ring).
      replace (INR (k - i) - 1) with (INR (k - i - 1)) by (rewrite (minus_INR (k - i) 1) by lia; reflexivity).
      apply Rmult_lt_0_compat; apply sin_mul; lia.
    - assert (i - k + 1 < n)%nat by (unfold nxt in B; destruct (Nat.eqb_spec (S i) n); lia).
      replace (d * (INR k - INR i)) with (- (d * INR (i - k))) by (rewrite minus_INR by lia; ring).
      replace (d * (INR k - INR i - 1)) with (- (d * INR (i - k + 1))) by (rewrite plus_INR, minus_INR by lia; cbn; ring).
      rewrite !sin_neg. assert (P1 : 0 < sin (d * INR (i - k))) by (apply sin_mul; lia). assert (P2 : 0 < sin (d * INR (i - k + 1))) by (apply sin_mul; lia). nra.
  Qed.
  (** the other corners are on the inner side of a side *)
  Lemma inner s i k : (i < n)%nat -> (k < n)%nat -> k <> i -> k <> nxt n i -> cos (ang n s k - (ang n s i + d)) < cos d.
  Proof.
    intros I K A B. pose proof (far I K A B) as F. rewrite !ang_lin by lia.
    replace (d * (2 * INR k + s) - (d * (2 * INR i + s) + d)) with (d * (INR k - INR i) + d * (INR k - INR i - 1)) by ring.
    replace (cos d) with (cos (d * (INR k - INR i) - d * (INR k - INR i - 1))) by (f_equal; ring).
    rewrite cos_plus, cos_minus. lra.
  Qed.
  Lemma cos_two x : cos (2 * x) = 1 - 2 * (sin x * sin x).
  Proof. replace (2 * x) with (x + x) by ring. rewrite cos_plus. pose proof (sin2_cos2 x) as E. unfold Rsqr in E. lra. Qed.
  Lemma other s i k : (i < n)%nat -> (k < n)%nat -> k <> i -> cos (ang n s k - ang n s i) < 1.
  Proof.
    intros I K A. rewrite !ang_lin by lia.
    replace (d * (2 * INR k + s) - d * (2 * INR i + s)) with (2 * (d * (INR k - INR i))) by ring. rewrite cos_two.
    assert (S : sin (d * (INR k - INR i)) <> 0).
    { destruct (Nat.lt_ge_cases i k) as [L|L].
      - replace (INR k - INR i) with (INR (k - i)) by (rewrite minus_INR by lia; ring). assert (0 < sin (d * INR (k - i))) by (apply sin_mul; lia). lra.
      - replace (d * (INR k - INR i)) with (- (d * INR (i - k))) by (rewrite minus_INR by lia; ring). rewrite sin_neg. assert (0 < sin (d * INR (i - k))) by (apply sin_mul; lia). lra. }
    assert (0 < sin (d * (INR k - INR i)) * sin (d * (INR k - INR i))) by (apply Rsqr_pos_lt in S; exact S). lra.
  Qed.
  (** a ring of corners, seen along the axis *)
  Lemma ring_det u r y a x z : det3 (0, u, 0) (vsub (rp r y (a + 2 * x)) (rp r y a)) (vsub (rp r y (a + 2 * z)) (rp r y a)) =
    u * (r * r) * (4 * (sin x * (sin (z - x) * sin z))).
  Proof.
    unfold rp, vsub, det3. rewrite !cos_plus, !sin_plus, sin_minus.
    replace (2 * x) with (x + x) by ring. replace (2 * z) with (z + z) by ring. rewrite !cos_plus, !sin_plus.
    pose proof (sin2_cos2 a) as A. pose proof (sin2_cos2 x) as X. pose proof (sin2_cos2 z) as Z. unfold Rsqr in *.
    set (ca := cos a) in *. set (sa := sin a) in *. set (cx := cos x) in *. set (sx := sin x) in *. set (cz := cos z) in *. set (sz := sin z) in *.
    assert (CX : cx * cx = 1 - sx * sx) by lra. assert (CZ : cz * cz = 1 - sz * sz) by lra.
    transitivity (u * (r * r) * (sa * sa + ca * ca) * (4 * (sx * ((sz * cx - cz * sx) * sz)))); [|rewrite A; ring].
    replace (cx * cx - sx * sx) with (1 - 2 * (sx * sx)) by lra. replace (cz * cz - sz * sz) with (1 - 2 * (sz * sz)) by lra.
    ring.
  Qed.
  Lemma ring_ccw s r y i k : r <> 0 -> (i < n)%nat -> (k < n)%nat -> k <> i -> k <> nxt n i ->
    0 < det3 (0, 1, 0) (vsub (rp r y (ang n s (nxt n i))) (rp r y (ang n s i))) (vsub (rp r y (ang n s k)) (rp r y (ang n s i))).
  Proof.
    intros HR I K A B. rewrite rp_nxt by lia.
    replace (ang n s k) with (ang n s i + 2 * (d * (INR k - INR i))) by (rewrite !ang_lin by lia; ring).
    rewrite ring_det. pose proof (far I K A B) as F. pose proof sin_d as D.
    replace (d * (INR k - INR i) - d) with (d * (INR k - INR i - 1)) by ring.
    assert (0 < r * r) by (apply Rsqr_pos_lt in HR; exact HR).
    apply Rmult_lt_0_compat; [lra|]. apply Rmult_lt_0_compat; [lra|]. apply Rmult_lt_0_compat; [lra|]. rewrite Rmult_comm. exact F.
  Qed.
End Angle.
