(** Random stars are simple, star-shaped and counter-clockwise. *)
From Coq Require Import List Arith Lia Reals Lra.
From Verif Require Import Base StarSpec Star.
Import ListNotations.
Set Implicit Arguments.
Unset Strict Implicit.
Local Open Scope R_scope.

Section Star.
  Variable n : nat.
  Hypothesis n3 : (3 <= n)%nat.
  Definition dl : R := 2 * PI / INR n.
  Definition ang (k : nat) : R := INR k * dl.
  Lemma n_pos : 3 <= INR n.
  Proof. apply le_INR in n3. cbn in n3. lra. Qed.
  Lemma dl_pos : 0 < dl < PI.
  Proof.
    pose proof n_pos. pose proof PI_RGT_0. unfold dl. split; [apply Rdiv_lt_0_compat; lra|].
    apply Rmult_lt_reg_r with (INR n); [lra|]. unfold Rdiv. rewrite Rmult_assoc, Rinv_l by lra. nra.
  Qed.
  Lemma ang_n : ang n = 2 * PI.
  Proof. pose proof n_pos. unfold ang, dl. field. lra. Qed.
  Lemma ang_S k : ang (S k) = ang k + dl.
  Proof. unfold ang. rewrite S_INR. ring. Qed.
  Lemma ang_add a b : ang (a + b) = ang a + ang b.
  Proof. unfold ang. rewrite plus_INR. ring. Qed.
  Lemma ang_le a b : (a <= b)%nat -> ang a <= ang b.
  Proof. intros L. unfold ang. apply le_INR in L. pose proof dl_pos. nra. Qed.
  Lemma ang_0 : ang 0 = 0.
  Proof. unfold ang. cbn. ring. Qed.

  (** Two sectors have at most a common ray. *)
  Lemma cones i d al be ga ep : (1 <= d)%nat -> (i + d < n)%nat -> 0 <= al -> 0 <= be -> 0 <= ga -> 0 <= ep -> 0 < ga + ep ->
    al * cos (ang i) + be * cos (ang (S i)) = ga * cos (ang (i + d)) + ep * cos (ang (S (i + d))) ->
    al * sin (ang i) + be * sin (ang (S i)) = ga * sin (ang (i + d)) + ep * sin (ang (S (i + d))) ->
    (d = 1%nat /\ al = 0 /\ ep = 0 /\ be = ga) \/ (i = 0%nat /\ S d = n /\ be = 0 /\ ga = 0 /\ al = ep).
  Proof.
    intros D1 DN A B G E GE EC ES. pose proof dl_pos as [DP DQ].
    assert (X1 : al * sin (ang i - ang (S i)) + be * sin (ang (S i) - ang (S i)) = ga * sin (ang (i + d) - ang (S i)) + ep * sin (ang (S (i + d)) - ang (S i))).
    { rewrite !sin_minus. transitivity ((al * sin (ang i) + be * sin (ang (S i))) * cos (ang (S i)) - (al * cos (ang i) + be * cos (ang (S i))) * sin (ang (S i))); [ring|]. rewrite EC, ES. ring. }
    assert (X2 : al * sin (ang i - ang i) + be * sin (ang (S i) - ang i) = ga * sin (ang (i + d) - ang i) + ep * sin (ang (S (i + d)) - ang i)).
    { rewrite !sin_minus. transitivity ((al * sin (ang i) + be * sin (ang (S i))) * cos (ang i) - (al * cos (ang i) + be * cos (ang (S i))) * sin (ang i)); [ring|]. rewrite EC, ES. ring. }
    destruct d as [|d]; [lia|]. clear D1.
    replace (ang i - ang (S i)) with (- dl) in X1 by (rewrite ang_S; ring). replace (ang (S i) - ang (S i)) with 0 in X1 by ring.
    replace (ang (i + S d) - ang (S i)) with (ang d) in X1 by (rewrite ang_add, !ang_S; ring). replace (ang (S (i + S d)) - ang (S i)) with (ang (S d)) in X1 by (rewrite !ang_S, ang_add, !ang_S; ring).
    replace (ang i - ang i) with 0 in X2 by ring. replace (ang (S i) - ang i) with dl in X2 by (rewrite ang_S; ring).
    replace (ang (i + S d) - ang i) with (ang (S d)) in X2 by (rewrite ang_add; ring). replace (ang (S (i + S d)) - ang i) with (ang (S d) + dl) in X2 by (rewrite (ang_S (i + S d)), ang_add; ring).
    rewrite sin_neg, sin_0 in X1. rewrite sin_0 in X2.
    assert (SD : 0 < sin dl) by (apply sin_gt_0; lra).
    assert (AD : 0 <= ang d) by (rewrite <- ang_0; apply ang_le; lia).
    assert (A2 : ang (S d) + dl <= 2 * PI) by (rewrite <- ang_S, <- ang_n; apply ang_le; lia).
    destruct (Rle_dec (ang (S d)) PI) as [LE|GT].
    - left. assert (S1 : 0 <= sin (ang d)) by (apply sin_ge_0; rewrite ang_S in LE; lra).
      assert (S2 : 0 <= sin (ang (S d))) by (apply sin_ge_0; rewrite ang_S in *; lra).
      assert (AZ : al = 0) by nra. assert (GZ : ga * sin (ang d) = 0) by nra. assert (EZ : ep * sin (ang (S d)) = 0) by nra.
      destruct d as [|d].
      + rewrite ang_S, ang_0, Rplus_0_l in EZ. assert (ep = 0) by nra. split; [auto|]. split; [auto|]. split; [auto|]. subst al ep.
        rewrite ang_S, ang_0, Rplus_0_l in X2. nra.
      + exfalso. assert (P : 0 < sin (ang (S d))).
        { apply sin_gt_0; [rewrite ang_S; pose proof (ang_le (Nat.le_0_l d)); rewrite ang_0 in *; lra|]. rewrite (ang_S (S d)) in LE. lra. }
        assert (ga = 0) by nra. subst ga. assert (0 < ep) by lra. assert (SZ : sin (ang (S (S d))) = 0) by nra.
        assert (EP : ang (S (S d)) = PI).
        { destruct (Rle_lt_or_eq_dec _ _ LE) as [LT|]; auto. exfalso. assert (0 < sin (ang (S (S d)))); [|lra]. apply sin_gt_0; [|auto]. rewrite ang_S. lra. }
        rewrite EP in X2. replace (sin (PI + dl)) with (- sin dl) in X2 by (rewrite Rplus_comm, neg_sin; ring). rewrite sin_PI in X2. nra.
    - right. assert (GT' : PI < ang (S d)) by lra. assert (S1 : sin (ang (S d)) < 0) by (apply sin_lt_0; lra).
      assert (S2 : sin (ang (S d) + dl) <= 0) by (apply sin_le_0; lra).
      assert (BZ : be = 0) by nra. assert (GZ : ga = 0) by nra. subst be ga. assert (0 < ep) by lra.
      assert (SZ : sin (ang (S d) + dl) = 0) by nra.
      assert (EA : ang (S d) + dl = 2 * PI).
      { destruct (Rle_lt_or_eq_dec _ _ A2) as [LT|]; auto. exfalso. assert (sin (ang (S d) + dl) < 0); [|lra]. apply sin_lt_0; lra. }
      assert (DN' : S (S d) = n).
      { rewrite <- ang_S, <- ang_n in EA. unfold ang in EA. apply INR_eq. nra. }
      assert (i = 0%nat) by lia. split; [auto|]. split; [auto|]. split; [auto|]. split; [auto|].
      assert (SS : sin (ang (S d)) = - sin dl) by (replace (ang (S d)) with (- dl + 2 * PI) by lra; rewrite sin_plus, sin_2PI, cos_2PI, sin_neg; ring).
      rewrite SS in X1. nra.
  Qed.

  Variable r : nat -> R.
  Hypothesis rp : forall i, (i < n)%nat -> 0 < r i.
  Notation ps := (star_points n r).
  Lemma star_length : length ps = n.
  Proof. unfold star_points. rewrite map_length, seq_length. auto. Qed.
  Lemma phi_ang i : INR i / INR n * 2 * PI = ang i.
  Proof. pose proof n_pos. unfold ang, dl. field. lra. Qed.
  Lemma star_corner i : (i <= n)%nat -> corner ps i = (r (i mod n) * cos (ang i), r (i mod n) * sin (ang i)).
  Proof.
    intros L. unfold corner. rewrite star_length. assert (ML : (i mod n < n)%nat) by (apply Nat.mod_upper_bound; lia).
    unfold star_points. rewrite (nth_indep _ _ (star_point n r 0)) by (rewrite map_length, seq_length; auto). rewrite map_nth, seq_nth by auto. cbn [Nat.add].
    unfold star_point. cbv zeta. rewrite phi_ang. destruct (Nat.eq_dec i n) as [->|N].
    - rewrite Nat.mod_same by lia. rewrite ang_n, ang_0, cos_2PI, sin_2PI, cos_0, sin_0. reflexivity.
    - rewrite Nat.mod_small by lia. reflexivity.
  Qed.
  Lemma side_cone i p : (i < n)%nat -> on_side ps i p -> exists t, 0 <= t <= 1 /\
    fst p = (1 - t) * r i * cos (ang i) + t * r (S i mod n) * cos (ang (S i)) /\
    snd p = (1 - t) * r i * sin (ang i) + t * r (S i mod n) * sin (ang (S i)).
  Proof.
    intros L (t & T & ->). exists t. split; auto. rewrite !star_corner by lia. rewrite (Nat.mod_small i) by auto. cbn [fst snd]. split; ring.
  Qed.
  Lemma rS i : 0 < r (S i mod n).
  Proof. apply rp. apply Nat.mod_upper_bound. lia. Qed.
  Lemma conv_pos t a b : 0 <= t <= 1 -> 0 < a -> 0 < b -> 0 <= (1 - t) * a /\ 0 <= t * b /\ 0 < (1 - t) * a + t * b.
  Proof. intros T A B. split; [nra|]. split; [nra|]. destruct (Rle_dec t (1 / 2)); nra. Qed.

  Lemma meet i j p q s : (i < j < n)%nat -> on_side ps i p -> on_side ps j q -> 0 <= s ->
    q = (s * fst p, s * snd p) \/ p = (s * fst q, s * snd q) ->
    s = 1 /\ ((j = S i /\ p = corner ps j) \/ (i = 0%nat /\ S j = n /\ p = corner ps i)).
  Proof.
    intros L SI SJ S0 EQ. destruct (@side_cone i p) as (t & T & PX & PY); [lia|auto|]. destruct (@side_cone j q) as (u & U & QX & QY); [lia|auto|].
    assert (Ri : 0 < r i) by (apply rp; lia). assert (Rj : 0 < r j) by (apply rp; lia). pose proof (rS i) as RSi. pose proof (rS j) as RSj.
    destruct (conv_pos T Ri RSi) as (A & B & AB). destruct (conv_pos U Rj RSj) as (G & E & GE).
    (* weights: x p = y q *)
    assert (K : exists x y, (x = 1 /\ y = s \/ x = s /\ y = 1) /\ 0 <= x /\ 0 <= y /\ x * fst p = y * fst q /\ x * snd p = y * snd q).
    { destruct EQ as [->| ->]; cbn [fst snd].
      - exists s, 1. split; [auto|]. split; [lra|]. split; [lra|]. split; ring.
      - exists 1, s. split; [auto|]. split; [lra|]. split; [lra|]. split; ring. }
    destruct K as (x & y & XY & X0 & Y0 & KX & KY).
    assert (LEN : ~ (fst p = 0 /\ snd p = 0) /\ ~ (fst q = 0 /\ snd q = 0)).
    { assert (NZ : forall k al be, 0 <= al -> 0 <= be -> 0 < al + be -> al * cos (ang k) + be * cos (ang (S k)) = 0 -> al * sin (ang k) + be * sin (ang (S k)) = 0 -> False).
      { intros k al be A' B' AB' C1 C2. pose proof dl_pos. assert (SD : 0 < sin dl) by (apply sin_gt_0; lra).
        assert (be * sin (ang (S k) - ang k) = 0). { rewrite sin_minus. transitivity ((al * sin (ang k) + be * sin (ang (S k))) * cos (ang k) - (al * cos (ang k) + be * cos (ang (S k))) * sin (ang k)); [ring|]. rewrite C1, C2. ring. }
        assert (al * sin (ang (S k) - ang k) = 0). { rewrite sin_minus. transitivity ((al * cos (ang k) + be * cos (ang (S k))) * sin (ang (S k)) - (al * sin (ang k) + be * sin (ang (S k))) * cos (ang (S k))); [ring|]. rewrite C1, C2. ring. }
        replace (ang (S k) - ang k) with dl in * by (rewrite ang_S; ring). nra. }
      split; intros [Z1 Z2]; [eapply (NZ i ((1 - t) * r i) (t * r (S i mod n))); lra|eapply (NZ j ((1 - u) * r j) (u * r (S j mod n))); lra]. }
    assert (YP : 0 < y). { destruct XY as [[-> ->]|[-> ->]]; [|lra]. destruct (Rle_lt_or_eq_dec _ _ S0); auto. subst s. exfalso. apply (proj1 LEN). split; lra. }
    assert (XP : 0 < x). { destruct XY as [[-> ->]|[-> ->]]; [lra|]. destruct (Rle_lt_or_eq_dec _ _ S0); auto. subst s. exfalso. apply (proj2 LEN). split; lra. }
    destruct (@cones i (j - i) (x * ((1 - t) * r i)) (x * (t * r (S i mod n))) (y * ((1 - u) * r j)) (y * (u * r (S j mod n)))) as [(D & Z1 & Z2 & Z3)|(I0 & D & Z1 & Z2 & Z3)]; try lia; try nra.
    { replace (i + (j - i))%nat with j by lia. rewrite PX, QX in KX. lra. }
    { replace (i + (j - i))%nat with j by lia. rewrite PY, QY in KY. lra. }
    - assert (j = S i) as -> by lia. rewrite (Nat.mod_small (S i)) in * by lia.
      assert (T1 : t = 1). { apply Rmult_integral in Z1 as [|Z1]; [lra|]. apply Rmult_integral in Z1 as [|]; lra. }
      assert (U1 : u = 0). { apply Rmult_integral in Z2 as [|Z2]; [lra|]. apply Rmult_integral in Z2 as [|]; lra. }
      subst t u. assert (EXY : x = y) by nra. split; [destruct XY as [[]|[]]; lra|]. left. split; auto.
      rewrite star_corner, Nat.mod_small by lia. destruct p as [p1 p2]; cbn [fst snd] in *. f_equal; lra.
    - subst i. assert (DJ : S j = n) by lia. rewrite DJ, Nat.mod_same in * by lia.
      assert (T1 : t = 0). { apply Rmult_integral in Z1 as [|Z1]; [lra|]. apply Rmult_integral in Z1 as [|]; lra. }
      assert (U1 : u = 1). { apply Rmult_integral in Z2 as [|Z2]; [lra|]. apply Rmult_integral in Z2 as [|]; lra. }
      subst t u. assert (EXY : x = y) by nra. split; [destruct XY as [[]|[]]; lra|]. right. split; auto. split; auto.
      rewrite star_corner, Nat.mod_small by lia. destruct p as [p1 p2]; cbn [fst snd] in *. f_equal; lra.
  Qed.

  Lemma star_simple : simple_rpolygon ps.
  Proof.
    unfold simple_rpolygon. rewrite star_length. split; [auto|]. intros i j p Li Lj NE SI SJ.
    assert (K : forall i j, (i < j < n)%nat -> on_side ps i p -> on_side ps j p ->
      (j = S i mod n /\ p = corner ps j)%nat \/ (i = S j mod n /\ p = corner ps i)%nat).
    { clear i j Li Lj NE SI SJ. intros i j L SI SJ. destruct (@meet i j p p 1) as [_ [(-> & E)|(-> & E1 & E)]]; auto; [lra|left; destruct p; cbn; f_equal; ring| |].
      - left. split; auto. rewrite Nat.mod_small by lia. auto.
      - right. split; auto. rewrite E1, Nat.mod_same by lia. auto. }
    destruct (Nat.lt_total i j) as [L|[L|L]]; [apply K; auto; lia|lia|]. destruct (K j i) as [[A B]|[A B]]; auto; lia.
  Qed.
  Lemma star_star : star_shaped ps.
  Proof.
    unfold star_shaped. rewrite star_length. intros i j p s Li Lj SI S1 SJ.
    destruct (Nat.lt_total i j) as [L|[L|L]].
    - destruct (@meet i j p (s * fst p, s * snd p) s) as [E _]; auto; lra.
    - subst j. destruct (@side_cone i p) as (t & T & PX & PY); [lia|auto|]. destruct (@side_cone i (s * fst p, s * snd p)) as (u & U & QX & QY); [lia|auto|]. cbn [fst snd] in QX, QY.
      assert (Ri : 0 < r i) by (apply rp; lia). pose proof (rS i) as RSi. rewrite PX in QX. rewrite PY in QY. pose proof dl_pos as DP. assert (SD : 0 < sin dl) by (apply sin_gt_0; lra).
      set (a := s * ((1 - t) * r i) - (1 - u) * r i). set (b := s * (t * r (S i mod n)) - u * r (S i mod n)).
      assert (E1 : a * cos (ang i) + b * cos (ang (S i)) = 0) by (unfold a, b; lra). assert (E2 : a * sin (ang i) + b * sin (ang (S i)) = 0) by (unfold a, b; lra).
      assert (F1 : b * sin (ang (S i) - ang i) = 0). { rewrite sin_minus. transitivity ((a * sin (ang i) + b * sin (ang (S i))) * cos (ang i) - (a * cos (ang i) + b * cos (ang (S i))) * sin (ang i)); [ring|]. rewrite E1, E2. ring. }
      assert (F2 : a * sin (ang (S i) - ang i) = 0). { rewrite sin_minus. transitivity ((a * cos (ang i) + b * cos (ang (S i))) * sin (ang (S i)) - (a * sin (ang i) + b * sin (ang (S i))) * cos (ang (S i))); [ring|]. rewrite E1, E2. ring. }
      replace (ang (S i) - ang i) with dl in * by (rewrite ang_S; ring). apply Rmult_integral in F1 as [F1|]; [|lra]. apply Rmult_integral in F2 as [F2|]; [|lra].
      unfold a in F2. unfold b in F1. assert (G1 : s * t - u = 0). { apply Rmult_eq_reg_r with (r (S i mod n)); [lra|lra]. } assert (G2 : s * (1 - t) - (1 - u) = 0). { apply Rmult_eq_reg_r with (r i); [lra|lra]. }
      lra.
    - destruct (@meet j i (s * fst p, s * snd p) p s) as [E _]; auto; lra.
  Qed.
  Lemma star_turns i : (i < n)%nat -> 0 < rturn (corner ps i) (corner ps (S i)).
  Proof.
    intros L. rewrite !star_corner by lia. unfold rturn. cbn [fst snd]. rewrite (Nat.mod_small i) by auto.
    assert (E : r i * cos (ang i) * (r (S i mod n) * sin (ang (S i))) - r i * sin (ang i) * (r (S i mod n) * cos (ang (S i))) = r i * r (S i mod n) * sin dl).
    { replace dl with (ang (S i) - ang i) by (rewrite ang_S; ring). rewrite sin_minus. ring. }
    rewrite E. pose proof (rp L). pose proof (rS i). pose proof dl_pos. assert (0 < sin dl) by (apply sin_gt_0; lra). apply Rmult_lt_0_compat; auto. apply Rmult_lt_0_compat; auto.
  Qed.
  Lemma star_area : 0 < rarea2 ps.
  Proof.
    unfold rarea2. rewrite star_length.
    assert (G : forall l, (forall i, In i l -> (i < n)%nat) -> l <> [] -> 0 < fold_right Rplus 0 (map (fun i => fst (corner ps i) * snd (corner ps (S i)) - snd (corner ps i) * fst (corner ps (S i))) l)).
    { induction l as [|i l IH]; intros H N; [tauto|]. cbn [map fold_right]. pose proof (star_turns (H i (or_introl eq_refl))) as P. unfold rturn in P.
      destruct l as [|j l]; [cbn; lra|]. assert (Q : 0 < fold_right Rplus 0 (map (fun i => fst (corner ps i) * snd (corner ps (S i)) - snd (corner ps i) * fst (corner ps (S i))) (j :: l))); [|lra].
      apply IH; [intros k K; apply H; right; auto|discriminate]. }
    apply G; [intros i I; apply in_seq in I; lia|]. destruct n; [lia|]. discriminate.
  Qed.
End Star.
