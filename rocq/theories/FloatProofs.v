(** The sign tests on bit patterns. *)
From Coq Require Import QArith Qabs Qpower List Bool NArith ZArith Lia Lqa.
From Verif Require Import Base GeoMath GeoMathSpec.

Section Float.
  Variables we wm : N.
  Lemma pow_pos (k : Z) : 0 < Qpower 2 k.
  Proof. apply Qpower_0_lt. reflexivity. Qed.
  Lemma scaled_pos z k : (0 < z)%Z -> 0 < inject_Z z * Qpower 2 k.
  Proof. intros H. pose proof (pow_pos k). assert (0 < inject_Z z) by (change 0 with (inject_Z 0); rewrite <- Zlt_Qlt; exact H). nra. Qed.
  Lemma scaled_neg z k : (z <= 0)%Z -> inject_Z z * Qpower 2 k <= 0.
  Proof. intros H. pose proof (pow_pos k). assert (inject_Z z <= 0) by (change 0 with (inject_Z 0); rewrite <- Zle_Qle; exact H). nra. Qed.
  Lemma positive_complete bits : f_gt0 we wm bits -> is_positive we wm bits = true.
  Proof.
    unfold f_gt0, is_positive, f_value. change (N.testbit bits (we + wm)) with (f_sign we wm bits).
    destruct (f_special we wm bits); [intros [_ ->]; reflexivity|].
    destruct (f_sign we wm bits); [|reflexivity]. intros H. exfalso. destruct (f_exp we wm bits =? 0)%N.
    - pose proof (scaled_neg (-1 * Z.of_N (f_man wm bits)) (1 - bias we - Z.of_N wm)). lia || (apply (Qlt_irrefl 0); eapply Qlt_le_trans; [exact H|]; apply H0; lia).
    - pose proof (scaled_neg (-1 * (2 ^ Z.of_N wm + Z.of_N (f_man wm bits))) (Z.of_N (f_exp we wm bits) - bias we - Z.of_N wm)).
      apply (Qlt_irrefl 0). eapply Qlt_le_trans; [exact H|]. apply H0. assert (0 <= 2 ^ Z.of_N wm)%Z by (apply Z.pow_nonneg; lia). lia.
  Qed.
  Lemma zero_bits bits : (bits < 2 ^ (we + wm + 1))%N -> f_sign we wm bits = false -> f_exp we wm bits = 0%N -> f_man wm bits = 0%N -> bits = 0%N.
  Proof.
    intros B S E M. apply N.bits_inj. intros n. rewrite N.bits_0.
    destruct (N.lt_ge_cases n wm) as [L|L].
    - rewrite <- (N.mod_pow2_bits_low bits wm n L). unfold f_man in M. rewrite M. apply N.bits_0.
    - destruct (N.lt_ge_cases n (we + wm)) as [L2|L2].
      + unfold f_exp in E. replace n with (n - wm + wm)%N by lia. rewrite <- N.shiftr_spec by lia.
        rewrite <- (N.mod_pow2_bits_low _ we) by lia. rewrite E. apply N.bits_0.
      + destruct (N.eq_dec n (we + wm)) as [->|D]; [exact S|].
        rewrite <- (N.mod_small bits (2 ^ (we + wm + 1))) by exact B. apply N.mod_pow2_bits_high. lia.
  Qed.
  Lemma positive_sound bits : (bits < 2 ^ (we + wm + 1))%N -> is_positive we wm bits = true ->
    f_gt0 we wm bits \/ bits = 0%N \/ f_nan we wm bits.
  Proof.
    intros B P. assert (S : f_sign we wm bits = false) by (unfold is_positive in P; apply negb_true_iff in P; exact P).
    unfold f_gt0, f_nan. destruct (f_special we wm bits) eqn:Sp.
    - destruct (N.eq_dec (f_man wm bits) 0) as [M|M]; auto.
    - unfold f_value. rewrite S. destruct (N.eqb_spec (f_exp we wm bits) 0) as [E|E].
      + destruct (N.eq_dec (f_man wm bits) 0) as [M|M]; [right; left; apply zero_bits; auto|].
        left. apply scaled_pos. lia.
      + left. apply scaled_pos. assert (0 < 2 ^ Z.of_N wm)%Z by (apply Z.pow_pos_nonneg; lia). lia.
  Qed.
  Lemma negative_not bits : is_negative we wm bits = negb (is_positive we wm bits).
  Proof. unfold is_negative, is_positive. rewrite negb_involutive. reflexivity. Qed.
  Lemma abs_bits bits : f_sign we wm (fabs we wm bits) = false /\
    f_exp we wm (fabs we wm bits) = f_exp we wm bits /\ f_man wm (fabs we wm bits) = f_man wm bits.
  Proof.
    unfold fabs, is_positive. destruct (N.testbit bits (we + wm)) eqn:S; cbn [negb]; [|auto].
    assert (T : forall n, (n < we + wm)%N -> N.testbit (fneg we wm bits) n = N.testbit bits n).
    { intros n H. unfold fneg. rewrite N.lxor_spec, N.shiftl_spec_low by exact H. apply xorb_false_r. }
    split; [|split].
    - unfold f_sign, fneg. rewrite N.lxor_spec, S, N.shiftl_spec_high' by lia. rewrite N.sub_diag. reflexivity.
    - unfold f_exp. apply N.bits_inj. intros n. destruct (N.lt_ge_cases n we) as [L|L].
      + rewrite !N.mod_pow2_bits_low, !N.shiftr_spec by lia. apply T. lia.
      + rewrite !N.mod_pow2_bits_high by lia. reflexivity.
    - unfold f_man. apply N.bits_inj. intros n. destruct (N.lt_ge_cases n wm) as [L|L].
      + rewrite !N.mod_pow2_bits_low by lia. apply T. lia.
      + rewrite !N.mod_pow2_bits_high by lia. reflexivity.
  Qed.
  Lemma abs_value bits : f_value we wm (fabs we wm bits) == Qabs (f_value we wm bits).
  Proof.
    destruct (abs_bits bits) as (S & E & M). unfold f_value. rewrite S, E, M.
    assert (0 <= 2 ^ Z.of_N wm)%Z by (apply Z.pow_nonneg; lia).
    destruct (f_sign we wm bits), (f_exp we wm bits =? 0)%N; rewrite Qabs_Qmult, (Qabs_pos (Qpower _ _)) by (apply Qlt_le_weak, pow_pos);
      (apply Qmult_comp; [|reflexivity]); unfold inject_Z, Qabs; cbn [Qnum Qden]; rewrite Z.abs_mul; cbn [Z.abs];
      rewrite Z.abs_eq by lia; reflexivity.
  Qed.
End Float.
Lemma abs_all we wm bits : (f_value we wm (fabs we wm bits) == Qabs (f_value we wm bits))%Q /\
  f_sign we wm (fabs we wm bits) = false /\ f_special we wm (fabs we wm bits) = f_special we wm bits.
Proof.
  split; [apply abs_value|]. destruct (abs_bits we wm bits) as (S & E & M). split; [exact S|]. unfold f_special. rewrite E. reflexivity.
Qed.
