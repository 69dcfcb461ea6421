(** UV spheres are convex. *)
From Coq Require Import List Arith Lia Reals Lra Psatz.
From Verif Require Import Base Mesh Sphere SphereSpec SolidSpec Solid PartProofs Regular RegularSpec RegularTrig RegularProofs.
Import ListNotations.
Set Implicit Arguments.
Unset Strict Implicit.
Local Open Scope R_scope.

Lemma facet_rot3 pts a b e : facet pts [a; b; e] -> facet pts [b; e; a].
Proof.
  intros (v & c & H1 & H2 & H3). exists v, c. split; [intros i I; apply H1; cbn in *; tauto|].
  split; [intros i I NI; apply H2; auto; cbn in *; tauto|]. intros i j k I K. apply H3; cbn in *; tauto.
Qed.
Lemma facet_rot4 pts a b e f : facet pts [a; b; e; f] -> facet pts [e; f; a; b].
Proof.
  intros (v & c & H1 & H2 & H3). exists v, c. split; [intros i I; apply H1; cbn in *; tauto|].
  split; [intros i I NI; apply H2; auto; cbn in *; tauto|]. intros i j k I K. apply H3; cbn in *; tauto.
Qed.

(** ** rings in the other direction *)
Lemma turn_fans (o n v : nat) l : (0 < n)%nat -> In l (fans (turn (seq o n)) v) -> exists k, (k < n)%nat /\ l = [o + nxt n k; o + k; v]%nat.
Proof.
  intros N I. unfold fans in I. apply in_map_iff in I as ([i j] & <- & I). apply cyc_turn in I. rewrite cyc_seq in I by auto.
  apply in_map_iff in I as (k & E & K). apply in_seq in K. injection E as <- <-. exists k. split; [lia|reflexivity].
Qed.
Lemma cyc_map {A B} (f : A -> B) l : cyc (map f l) = map (fun p => (f (fst p), f (snd p))) (cyc l).
Proof.
  unfold cyc. replace (tl (map f l)) with (map f (tl l)) by (destruct l; reflexivity). rewrite firstn_map, <- map_app. generalize (tl l ++ firstn 1 l).
  induction l as [|a l IH]; intros [|b t]; cbn; auto. f_equal. apply IH.
Qed.
Lemma turn_map {A B} (f : A -> B) l : turn (map f l) = map f (turn l).
Proof. destruct l; cbn; auto. rewrite map_rev. auto. Qed.
Lemma seq_shift_map o n : seq o n = map (fun k => o + k)%nat (seq 0 n).
Proof. revert o. induction n as [|n IH]; intros o; cbn; auto. rewrite Nat.add_0_r, IH, (IH 1%nat), map_map. f_equal. apply map_ext. intros; lia. Qed.
Lemma turn_quads (a b n : nat) l : (0 < n)%nat -> In l (quads (turn (seq a n)) (turn (seq b n))) ->
  exists k, (k < n)%nat /\ l = [a + nxt n k; a + k; b + k; b + nxt n k]%nat.
Proof.
  intros N I. unfold quads in I. rewrite (seq_shift_map a), (seq_shift_map b), !turn_map, !cyc_map, combine_map2, map_map in I.
  apply in_map_iff in I as ([i j] & <- & I). apply cyc_turn in I. rewrite cyc_seq in I by auto.
  apply in_map_iff in I as (k & E & K). apply in_seq in K. injection E as <- <-. exists k. split; [lia|reflexivity].
Qed.
Lemma in_stack {A} (rings : nat -> list A) m s l : In l (stack (map rings (seq s m))) ->
  exists i, (s <= i)%nat /\ (S i < s + m)%nat /\ In l (quads (turn (rings i)) (turn (rings (S i)))).
Proof.
  revert s. induction m as [|m IH]; intros s I; [destruct I|]. destruct m as [|m]; [destruct I|].
  change (In l (quads (turn (rings s)) (turn (rings (S s))) ++ stack (map rings (seq (S s) (S m))))) in I.
  apply in_app_iff in I as [I|I]; [exists s; repeat split; auto; lia|]. destruct (IH _ I) as (i & A1 & A2 & A3). exists i. repeat split; auto; lia.
Qed.
(** ** the points *)
Lemma nth_concat {A} (f : nat -> nat -> A) k m s i j d l : (i < m)%nat -> (j < k)%nat ->
  nth (i * k + j) (concat (map (fun i => map (f i) (seq 0 k)) (seq s m)) ++ l) d = f (s + i)%nat j.
Proof.
  revert s i. induction m as [|m IH]; intros s i I J; [lia|]. cbn [seq map concat]. rewrite <- app_assoc. destruct i as [|i].
  - cbn [Nat.mul Nat.add]. rewrite nth_one by auto. f_equal. lia.
  - rewrite app_nth2; rewrite map_length, seq_length; [|cbn; lia]. replace (S i * k + j - k)%nat with (i * k + j)%nat by (cbn; lia).
    rewrite IH by lia. f_equal. lia.
Qed.
Lemma length_concat {A} (f : nat -> nat -> A) k m s : length (concat (map (fun i => map (f i) (seq 0 k)) (seq s m))) = (m * k)%nat.
Proof. revert s. induction m as [|m IH]; intros s; cbn [seq map concat]; auto. rewrite app_length, IH, map_length, seq_length. reflexivity. Qed.

Section Uv.
  Variables (radius : R) (n k : nat).
  Hypothesis HR : 0 < radius.
  Hypothesis N : (2 <= n)%nat.
  Hypothesis K : (3 <= k)%nat.
  Notation d := (PI / INR k).
  Definition phi (a : nat) : R := PI / INR n * INR a.
  Definition rho (a : nat) : R := radius * sin (phi a).
  Definition hgt (a : nat) : R := radius * cos (phi a).
  Definition off (a : nat) : nat := (1 + (a - 1) * k)%nat.
  Let pts := sphere_points (uv_at radius n k) n k.

  Lemma uv_rp a j : uv_at radius n k a j = rp (rho a) (hgt a) (ang k 4 j).
  Proof.
    unfold uv_at, rp, rho, hgt, phi. assert (0 < INR n) by (apply lt_0_INR; lia). assert (0 < INR k) by (apply lt_0_INR; lia).
    replace (PI * INR a / INR n) with (PI / INR n * INR a) by (field; lra).
    replace (- PI * INR (2 * j + 4) / INR k) with (- ang k 4 j).
    - rewrite cos_neg, sin_neg. f_equal; ring.
    - unfold ang. rewrite plus_INR. replace (INR 4) with 4 by (cbn; ring). field. lra.
  Qed.
  Lemma uv_len : length pts = (2 + (n - 1) * k)%nat.
  Proof. unfold pts, sphere_points. cbn [length]. rewrite app_length, length_concat. cbn. lia. Qed.
  Lemma uv_ring a j : (0 < a)%nat -> (a < n)%nat -> (j < k)%nat -> pt pts (off a + j) = rp (rho a) (hgt a) (ang k 4 j).
  Proof.
    intros A B J. rewrite <- uv_rp. unfold pt, pts, sphere_points, off. cbn [nth Nat.add].
    rewrite (nth_concat (uv_at radius n k)) by lia. f_equal. lia.
  Qed.
  Lemma n_pos' : 0 < INR n.
  Proof. apply lt_0_INR. lia. Qed.
  Lemma phi_0 : phi 0 = 0.
  Proof. unfold phi. cbn. ring. Qed.
  Lemma phi_n : phi n = PI.
  Proof. unfold phi. field. pose proof n_pos'. lra. Qed.
  Lemma uv_north x : pt pts 0 = rp (rho 0) (hgt 0) x.
  Proof. unfold pt, pts, sphere_points. cbn [nth]. rewrite uv_rp. unfold rho. rewrite phi_0, sin_0, Rmult_0_r. apply rp_zero. Qed.
  Lemma uv_south x : pt pts (1 + (n - 1) * k) = rp (rho n) (hgt n) x.
  Proof.
    unfold pt, pts, sphere_points. cbn [nth Nat.add]. rewrite app_nth2; rewrite length_concat; [|lia]. rewrite Nat.sub_diag. cbn [nth].
    rewrite uv_rp. unfold rho. rewrite phi_n, sin_PI, Rmult_0_r. apply rp_zero.
  Qed.
  Lemma uv_index i : (i < length pts)%nat -> i = 0%nat \/ (exists a j, (0 < a < n)%nat /\ (j < k)%nat /\ i = (off a + j)%nat) \/ i = (1 + (n - 1) * k)%nat.
  Proof.
    rewrite uv_len. intros I. destruct i as [|i]; [auto|]. right. destruct (Nat.eq_dec i ((n - 1) * k)) as [->|E]; [right; lia|left].
    exists (S (i / k)), (i mod k). pose proof (Nat.mod_upper_bound i k ltac:(lia)). pose proof (Nat.div_mod i k ltac:(lia)) as D.
    assert (i / k < n - 1)%nat by (apply Nat.div_lt_upper_bound; lia). unfold off. repeat split; auto; lia.
  Qed.

  (** the plane of band [i] *)
  Let psi i := phi i + PI / INR n / 2.
  Let eta := PI / INR n / 2.
  Lemma phi_S i : phi (S i) = phi i + PI / INR n.
  Proof. unfold phi. rewrite S_INR. ring. Qed.
  Lemma eta_pos : 0 < eta /\ eta < PI / 2.
  Proof.
    pose proof n_pos' as NP. pose proof PI_RGT_0. unfold eta. split; [apply Rdiv_lt_0_compat; [apply Rdiv_lt_0_compat; lra|lra]|].
    assert (PI / INR n < PI); [|lra]. apply Rmult_lt_reg_r with (INR n); auto. unfold Rdiv. rewrite Rmult_assoc, Rinv_l, Rmult_1_r by lra.
    rewrite <- (Rmult_1_r PI) at 1. apply Rmult_lt_compat_l; auto. change 1 with (INR 1). apply lt_INR. lia.
  Qed.
  Lemma phi_range a : (a <= n)%nat -> 0 <= phi a <= PI.
  Proof.
    intros A. rewrite <- phi_n. unfold phi. pose proof eta_pos as E. unfold eta in E. assert (0 < PI / INR n) by lra.
    split; [apply Rmult_le_pos; [lra|apply pos_INR]|apply Rmult_le_compat_l; [lra|apply le_INR; auto]].
  Qed.
  Lemma phi_le a b : (a <= b)%nat -> phi a <= phi b.
  Proof. intros A. unfold phi. pose proof eta_pos as E. unfold eta in E. apply Rmult_le_compat_l; [lra|apply le_INR; auto]. Qed.
  Lemma psi_sin i : (i < n)%nat -> 0 < sin (psi i).
  Proof.
    intros I. pose proof eta_pos as E. pose proof (@phi_range i ltac:(lia)) as A. pose proof (@phi_range (S i) ltac:(lia)) as B. rewrite phi_S in B.
    apply sin_gt_0; unfold psi, eta in *; lra.
  Qed.
  Lemma rho_pos a : (0 < a)%nat -> (a < n)%nat -> 0 < rho a.
  Proof.
    intros A B. unfold rho. apply Rmult_lt_0_compat; auto. pose proof (@phi_le 1 a A) as X. pose proof (@phi_range (S a) ltac:(lia)) as Y. rewrite phi_S in Y.
    rewrite phi_S, phi_0 in X. pose proof eta_pos as E. unfold eta in E. apply sin_gt_0; lra.
  Qed.
  Lemma rho_nn a : (a <= n)%nat -> 0 <= rho a.
  Proof. intros A. unfold rho. apply Rmult_le_pos; [lra|]. destruct (phi_range A). apply sin_ge_0; auto. Qed.
  (** the profile of the sphere against the chord of band [i] *)
  Lemma profile i a : sin (psi i) * rho a + cos (psi i) * hgt a = radius * cos (phi a - psi i).
  Proof. unfold rho, hgt. rewrite cos_minus. ring. Qed.
  Lemma profile_lo i : sin (psi i) * rho i + cos (psi i) * hgt i = radius * cos eta.
  Proof. rewrite profile. unfold psi, eta. replace (phi i - (phi i + PI / INR n / 2)) with (- (PI / INR n / 2)) by ring. rewrite cos_neg. auto. Qed.
  Lemma profile_hi i : sin (psi i) * rho (S i) + cos (psi i) * hgt (S i) = radius * cos eta.
  Proof. rewrite profile, phi_S. unfold psi, eta. f_equal. f_equal. field. pose proof n_pos'. lra. Qed.
  Lemma profile_off i a : (i < n)%nat -> (a <= n)%nat -> a <> i -> a <> S i -> sin (psi i) * rho a + cos (psi i) * hgt a < radius * cos eta.
  Proof.
    intros I A E1 E2. rewrite profile. apply Rmult_lt_compat_l; auto. pose proof eta_pos as E. pose proof PI_RGT_0 as PP.
    pose proof (phi_range A) as RA. pose proof (@phi_range (S i) ltac:(lia)) as RB. rewrite phi_S in RB. pose proof (@phi_range i ltac:(lia)) as RI.
    destruct (Nat.lt_ge_cases a i) as [L|L].
    - pose proof (@phi_le (S a) i L) as X. rewrite phi_S in X. rewrite <- cos_neg.
      apply cos_decreasing_1; unfold psi, eta in *; lra.
    - pose proof (@phi_le (S (S i)) a ltac:(lia)) as X. rewrite !phi_S in X. apply cos_decreasing_1; unfold psi, eta in *; lra.
  Qed.
  Lemma profile_turn i : (i < n)%nat -> 0 < sin (psi i) / cos d * (hgt i - hgt (S i)) + cos (psi i) * ((rho (S i) - rho i) * cos d).
  Proof.
    intros I. pose proof (cos_d K) as CD. pose proof (psi_sin I) as SP. pose proof eta_pos as E. assert (SE : 0 < sin eta) by (apply sin_gt_0; pose proof PI_RGT_0; lra).
    replace (hgt i - hgt (S i)) with (2 * radius * sin (psi i) * sin eta).
    2:{ unfold hgt. rewrite phi_S. replace (phi i + PI / INR n) with (psi i + eta) by (unfold psi, eta; field; pose proof n_pos'; lra).
        replace (phi i) with (psi i - eta) by (unfold psi, eta; ring). rewrite cos_plus, cos_minus. ring. }
    replace (rho (S i) - rho i) with (2 * radius * cos (psi i) * sin eta).
    2:{ unfold rho. rewrite phi_S. replace (phi i + PI / INR n) with (psi i + eta) by (unfold psi, eta; field; pose proof n_pos'; lra).
        replace (phi i) with (psi i - eta) by (unfold psi, eta; ring). rewrite sin_plus, sin_minus. ring. }
    replace (_ + _) with (2 * radius * sin eta * (sin (psi i) * sin (psi i) / cos d + cos (psi i) * cos (psi i) * cos d)) by (field; lra).
    apply Rmult_lt_0_compat; [apply Rmult_lt_0_compat; lra|]. apply Rplus_lt_le_0_compat; [apply Rdiv_lt_0_compat; nra|].
    apply Rmult_le_pos; [apply Rle_0_sqr|lra].
  Qed.
  (** every corner not on the face is strictly behind its plane *)
  Lemma uv_behind i q j : (i < n)%nat -> (q < k)%nat -> (j < length pts)%nat ->
    (i = 0%nat -> j <> 0%nat) -> (S i = n -> j <> (1 + (n - 1) * k)%nat) ->
    ((0 < i)%nat -> j <> (off i + q)%nat /\ j <> (off i + nxt k q)%nat) -> ((S i < n)%nat -> j <> (off (S i) + q)%nat /\ j <> (off (S i) + nxt k q)%nat) ->
    vdot (rp (sin (psi i) / cos d) (cos (psi i)) (ang k 4 q + d)) (pt pts j) < radius * cos eta.
  Proof.
    intros I Q J H0 HN H1 H2. pose proof (cos_d K) as CD. pose proof (psi_sin I) as SP. destruct (uv_index J) as [->|[(a & x & A & X & ->)| ->]].
    - rewrite (uv_north (ang k 4 q + d)), rp_dot.
      replace (_ + _) with (sin (psi i) * rho 0 + cos (psi i) * hgt 0).
      + apply profile_off; auto; try lia; intros E; apply H0; auto.
      + unfold rho. rewrite phi_0, sin_0. ring.
    - rewrite uv_ring, rp_dot by lia. set (z := cos (ang k 4 x - (ang k 4 q + d))). pose proof (rho_pos (proj1 A) (proj2 A)) as RP.
      assert (PS : 0 < sin (psi i) / cos d * rho a) by (apply Rmult_lt_0_compat; auto; apply Rdiv_lt_0_compat; auto).
      assert (EQ : sin (psi i) / cos d * rho a * cos d = sin (psi i) * rho a) by (field; lra).
      assert (ZL : z <= cos d).
      { destruct (Nat.eq_dec x q) as [->|N1]; [|destruct (Nat.eq_dec x (nxt k q)) as [->|N2]].
        - unfold z. replace (ang k 4 q - (ang k 4 q + d)) with (- d) by ring. rewrite cos_neg. lra.
        - assert (z = cos d); [|lra]. unfold z, nxt. pose proof (d_n K) as DN. destruct (Nat.eqb_spec (S q) k) as [E|E]; rewrite !ang_lin by lia.
          + replace (d * (2 * INR 0 + 4) - (d * (2 * INR q + 4) + d)) with (- (2 * PI - d)).
            * rewrite cos_neg, cos_minus, cos_2PI, sin_2PI. ring.
            * assert (INR k = INR q + 1) as KQ by (rewrite <- E, S_INR; auto). rewrite <- DN at 1. rewrite KQ at 2. cbn [INR]. ring.
          + rewrite S_INR. f_equal. ring.
        - apply Rlt_le. unfold z. apply inner; auto. }
      destruct (Nat.eq_dec a i) as [->|NA]; [|destruct (Nat.eq_dec a (S i)) as [->|NB]].
      + rewrite <- (profile_lo i), <- EQ. apply Rplus_lt_compat_r, Rmult_lt_compat_l; auto. destruct (H1 (proj1 A)) as [U1 U2]. apply inner; auto; intros ->; auto.
      + rewrite <- (profile_hi i), <- EQ. apply Rplus_lt_compat_r, Rmult_lt_compat_l; auto. destruct (H2 (proj2 A)) as [U1 U2]. apply inner; auto; intros ->; auto.
      + apply Rle_lt_trans with (sin (psi i) * rho a + cos (psi i) * hgt a); [|apply profile_off; auto; lia]. rewrite <- EQ. apply Rplus_le_compat_r, Rmult_le_compat_l; lra.
    - rewrite (uv_south (ang k 4 q + d)), rp_dot.
      replace (_ + _) with (sin (psi i) * rho n + cos (psi i) * hgt n).
      + apply profile_off; auto; try lia; intros E; apply HN; auto.
      + unfold rho. rewrite phi_n, sin_PI. ring.
  Qed.
  Lemma off_S i : (0 < i)%nat -> off (S i) = (off i + k)%nat.
  Proof. intros I. unfold off. destruct i as [|i]; [lia|]. cbn. lia. Qed.
  Lemma off_lt i : (i < n)%nat -> (off i + k <= 1 + (n - 1) * k)%nat.
  Proof. intros I. unfold off. destruct (Nat.eq_dec i 0) as [->|E]; [|pose proof (Nat.mul_le_mono_r (S (i - 1)) (n - 1) k ltac:(lia))]; [|lia]. pose proof (Nat.mul_le_mono_r 1 (n - 1) k ltac:(lia)). lia. Qed.
  Theorem uv_convex : convex_solid pts (sphere_polys n k).
  Proof.
    pose proof (cos_d K) as CD. intros l I. unfold sphere_polys in I. apply in_app_iff in I as [I|I]; [|apply in_app_iff in I as [I|I]].
    - (* the cap around the first pole *)
      change (sphere_ring k 1) with (seq (off 1) k) in I. rewrite fans_seq in I by lia. apply in_map_iff in I as (q & <- & Q). apply in_seq in Q.
      assert (Q' : (q < k)%nat) by lia. pose proof (@psi_sin 0 ltac:(lia)) as SP. pose proof (@profile_turn 0 ltac:(lia)) as PT.
      apply (@facet_stand pts k (off 1) (rho 1) (hgt 1) 4 K (fun j J => @uv_ring 1 j ltac:(lia) ltac:(lia) J) q 0%nat
        (sin (psi 0) / cos d) (cos (psi 0)) (radius * cos eta) (rho 0) (hgt 0)); auto.
      + apply rho_pos; lia.
      + apply uv_north.
      + rewrite <- (profile_hi 0). field. lra.
      + rewrite <- (profile_lo 0). unfold rho. rewrite phi_0, sin_0. ring.
      + eapply Rlt_le_trans; [exact PT|]. apply Req_le. unfold rho. rewrite phi_0, sin_0. ring.
      + intros j J NI. apply uv_behind; auto; try lia.
        * intros _ ->. apply NI. cbn; auto.
        * intros _. split; intros ->; apply NI; cbn; auto.
    - (* a band *)
      apply in_stack in I as (i & I1 & I2 & I). change (sphere_ring k i) with (seq (off i) k) in I. change (sphere_ring k (S i)) with (seq (off (S i)) k) in I.
      apply turn_quads in I as (q & Q & ->); [|lia]. apply facet_rot4.
      apply (@facet_side pts k (off (S i)) (off i) (rho (S i)) (hgt (S i)) 4 (rho i) (hgt i) 4 K
        (fun j J => @uv_ring (S i) j ltac:(lia) ltac:(lia) J) (fun j J => @uv_ring i j ltac:(lia) ltac:(lia) J) q (sin (psi i) / cos d) (cos (psi i)) (radius * cos eta)); auto.
      + apply rho_pos; lia.
      + apply rho_pos; lia.
      + rewrite <- (profile_hi i). field. lra.
      + rewrite <- (profile_lo i). field. lra.
      + apply profile_turn. lia.
      + intros j J NI. apply uv_behind; auto; try lia; intros _; split; intros ->; apply NI; cbn; auto.
    - (* the other cap *)
      change (sphere_ring k (n - 1)) with (seq (off (n - 1)) k) in I. apply turn_fans in I as (q & Q & ->); [|lia]. apply facet_rot3.
      assert (E : n = S (n - 1)) by lia. pose proof (@psi_sin (n - 1) ltac:(lia)) as SP. pose proof (@profile_turn (n - 1) ltac:(lia)) as PT. rewrite <- E in PT.
      pose proof (profile_hi (n - 1)) as PH. rewrite <- E in PH.
      apply (@facet_hang pts k (off (n - 1)) (rho (n - 1)) (hgt (n - 1)) 4 K (fun j J => @uv_ring (n - 1) j ltac:(lia) ltac:(lia) J) q (1 + (n - 1) * k)%nat
        (sin (psi (n - 1)) / cos d) (cos (psi (n - 1))) (radius * cos eta) (rho n) (hgt n)); auto.
      + apply rho_pos; lia.
      + apply uv_south.
      + rewrite <- (profile_lo (n - 1)). field. lra.
      + rewrite <- PH. unfold rho. rewrite phi_n, sin_PI. ring.
      + eapply Rlt_le_trans; [exact PT|]. apply Req_le. unfold rho. rewrite phi_n, sin_PI. ring.
      + intros j J NI. apply uv_behind; auto; try lia.
        * intros _ ->. apply NI. cbn; auto.
        * intros _. split; intros ->; apply NI; cbn; auto.
  Qed.
  Theorem uv_on_sphere : forall p, In p pts -> on_sphere zero3 radius p.
  Proof.
    assert (G : forall a j, on_sphere zero3 radius (uv_at radius n k a j)).
    { intros a j. rewrite uv_rp. unfold on_sphere, vlen, zero3, rp, vsub, vdot, rho, hgt.
      pose proof (sin2_cos2 (phi a)) as A. pose proof (sin2_cos2 (ang k 4 j)) as B. unfold Rsqr in *.
      transitivity (sqrt (radius * radius)); [f_equal|apply sqrt_square; lra].
      transitivity (radius * radius * (sin (phi a) * sin (phi a) * (sin (ang k 4 j) * sin (ang k 4 j) + cos (ang k 4 j) * cos (ang k 4 j)) + cos (phi a) * cos (phi a))); [ring|rewrite B; nra]. }
    intros p [<-|I]; [apply G|]. apply in_app_iff in I as [I|[<-|[]]]; [|apply G]. apply in_concat in I as (l & I & P). apply in_map_iff in I as (a & <- & _).
    apply in_map_iff in P as (j & <- & _). apply G.
  Qed.
End Uv.
