(** Flattening of curves over the rationals. *)
From Coq Require Import QArith Qround Qfield List Bool ZArith Lia Lqa Setoid.
From Verif Require Import Base Mesh Alg AlgSpec AlgProofs CurveSpec.
Import ListNotations.

Definition qpoint := point_at 1 Qplus Qmult Qminus.
Definition qlerp := lerp Qplus Qmult Qminus.
Definition halve (a b : Q) : Q := (a + b) / 2.
Definition qrec := fun fuel => recursive_flatten 1 Qplus Qmult Qminus fuel halve (1 # 2).
Definition qflatten := fun fuel => flatten_casteljau 0 1 Qplus Qmult Qminus fuel halve (1 # 2).

Lemma dyadic_int k : dyadic (inject_Z k).
Proof. exists k, O. cbn. ring. Qed.
Lemma dyadic_halve a b : dyadic a -> dyadic b -> dyadic (halve a b).
Proof.
  intros (k & n & A) (l & m & B). unfold halve.
  exists (k * 2 ^ Z.of_nat m + l * 2 ^ Z.of_nat n)%Z, (S (n + m)).
  rewrite inject_Z_plus, !inject_Z_mult, <- A, <- B.
  rewrite Nat2Z.inj_succ, Nat2Z.inj_add, Z.pow_succ_r, Z.pow_add_r, !inject_Z_mult by lia.
  change (inject_Z 2) with 2. field.
Qed.
Lemma halve_between a b : a < b -> a < halve a b /\ halve a b < b.
Proof. intros H. unfold halve. split; [apply Qlt_shift_div_l|apply Qlt_shift_div_r]; lra. Qed.

Section Flatten.
  Variables (close : (nat -> Q) -> (nat -> Q) -> bool) (cv : curve Q) (s e : nat -> Q).
  Let P := qpoint cv s e.
  Definition ok_segment (a b : Q) : Prop := close (P (halve a b)) (qlerp (P a) (P b) (1 # 2)) = true.

  Lemma neighbours_cons {A} (R : A -> A -> Prop) x y l : neighbours R (x :: y :: l) <-> R x y /\ neighbours R (y :: l).
  Proof.
    split.
    - intros H. split; [apply (H [] x y l); reflexivity|]. intros p u v q E. apply (H (x :: p) u v q). rewrite E. reflexivity.
    - intros [H1 H2] [|z p] u v q E; cbn in E.
      + injection E as <- <- _. exact H1.
      + injection E as _ E. apply (H2 p u v q). exact E.
  Qed.
  Lemma neighbours_glue {A} (R : A -> A -> Prop) l k q : neighbours R (l ++ [k]) -> neighbours R (k :: q) -> neighbours R (l ++ k :: q).
  Proof.
    induction l as [|x l IH]; intros H K; [exact K|]. destruct l as [|y l].
    - cbn in *. apply neighbours_cons. split; [|exact K]. apply neighbours_cons in H. tauto.
    - cbn in *. apply neighbours_cons in H. apply neighbours_cons. split; [tauto|]. apply IH; tauto.
  Qed.
  Lemma increasing_app a l b q : increasing a (l ++ [b]) -> increasing b q -> increasing a (l ++ b :: q).
  Proof. revert a. induction l as [|x l IH]; cbn; intros a H K; [tauto|]. split; [tauto|]. apply IH; tauto. Qed.

  Lemma rec_spec fuel : forall t0 t1 lines out, t0 < t1 -> dyadic t0 -> dyadic t1 ->
    qrec fuel close cv s e t0 t1 lines = Ok out ->
    exists ts, out = lines ++ rev (map P (ts ++ [t1])) /\ increasing t0 (ts ++ [t1]) /\
      Forall dyadic ts /\ neighbours ok_segment (t0 :: ts ++ [t1]).
  Proof.
    induction fuel as [|fuel IH]; intros t0 t1 lines out L D0 D1 E; [discriminate E|].
    unfold qrec in *. cbn [recursive_flatten] in E.
    fold (qpoint cv s e t0) (qpoint cv s e t1) (qpoint cv s e (halve t0 t1)) in E.
    fold (qlerp (qpoint cv s e t0) (qpoint cv s e t1) (1 # 2)) in E.
    change (qpoint cv s e) with P in E.
    destruct (close (P (halve t0 t1)) (qlerp (P t0) (P t1) (1 # 2))) eqn:C.
    - injection E as <-. exists []. split; [reflexivity|]. split; [cbn; auto|]. split; [constructor|].
      intros [|x [|y p]] u v q Eq; cbn in Eq; try discriminate.
      + injection Eq as <- <- _. exact C.
      + injection Eq as _ _ Eq. destruct p; discriminate Eq.
    - destruct (recursive_flatten 1 Qplus Qmult Qminus fuel halve (1 # 2) close cv s e (halve t0 t1) t1 lines) as [l1| |] eqn:E1; try discriminate E.
      cbn [bind] in E. destruct (halve_between _ _ L) as [L1 L2]. pose proof (dyadic_halve _ _ D0 D1) as DM.
      destruct (IH _ _ _ _ L2 DM D1 E1) as (ts1 & -> & I1 & F1 & N1).
      destruct (IH _ _ _ _ L1 D0 DM E) as (ts0 & -> & I0 & F0 & N0).
      exists (ts0 ++ halve t0 t1 :: ts1). split; [|split; [|split]].
      + rewrite <- app_assoc. f_equal. rewrite <- rev_app_distr, <- map_app. rewrite <- !app_assoc. reflexivity.
      + rewrite <- app_assoc. cbn [app]. apply increasing_app; auto.
      + apply Forall_app. split; auto.
      + rewrite <- app_assoc. cbn [app]. apply (neighbours_glue _ (t0 :: ts0)); auto.
  Qed.
  Theorem flatten_spec fuel out : qflatten fuel close cv s e = Ok out ->
    exists ts, out = map P ts /\ increasing 0 (ts ++ [1]) /\ Forall dyadic ts /\ neighbours ok_segment (0 :: ts ++ [1]).
  Proof.
    unfold qflatten, flatten_casteljau. intros E.
    destruct (recursive_flatten 1 Qplus Qmult Qminus fuel halve (1 # 2) close cv s e 0 1 []) as [l| |] eqn:E1; try discriminate E.
    cbn [bind] in E. injection E as <-.
    destruct (rec_spec fuel 0 1 [] l) as (ts & -> & I & F & N); auto; [lra|apply (dyadic_int 0)|apply (dyadic_int 1)|].
    exists ts. split; [|auto]. cbn [app]. rewrite rev_involutive, map_app. cbn [map]. apply removelast_last.
  Qed.
End Flatten.

(** ** deviation from the chord *)
(** second derivative at the two ends *)
Definition d0 (cv : curve Q) (s e : nat -> Q) (i : nat) : Q :=
  match cv with Linear _ => 0 | Quadratic c => 2 * (s i - 2 * c i + e i) | Cubic c1 c2 => 6 * (s i - 2 * c1 i + c2 i) end.
Definition d1 (cv : curve Q) (s e : nat -> Q) (i : nat) : Q :=
  match cv with Linear _ => 0 | Quadratic c => 2 * (s i - 2 * c i + e i) | Cubic c1 c2 => 6 * (c1 i - 2 * c2 i + e i) end.
Lemma mid_deviation cv s e a b i :
  qpoint cv s e (halve a b) i - qlerp (qpoint cv s e a) (qpoint cv s e b) (1 # 2) i ==
  - ((b - a) * (b - a) / 8) * ((1 - halve a b) * d0 cv s e i + halve a b * d1 cv s e i).
Proof. destruct cv; unfold qpoint, qlerp, lerp, halve; cbn; unfold lerp; field. Qed.
Lemma sq_nonneg (x : Q) : 0 <= x * x.
Proof. destruct (Qlt_le_dec x 0); nra. Qed.
Lemma norm2_nonneg D a b : 0 <= norm2 D a b.
Proof. induction D as [|D IH]; cbn; [lra|]. pose proof (sq_nonneg (a D - b D)). lra. Qed.
Lemma norm2_scale D a b c d k : (forall i, (i < D)%nat -> a i - b i == k * (c i - d i)) -> norm2 D a b == k * k * norm2 D c d.
Proof.
  induction D as [|D IH]; intros H; cbn; [ring|]. rewrite IH by (intros; apply H; lia). rewrite (H D) by lia. ring.
Qed.

Definition within (D : nat) (err2 : Q) (x y : nat -> Q) : bool := Qle_bool (norm2 D x y) err2.
(** linear and quadratic edges: every curve point is as close to its chord as the midpoint *)
Lemma quadratic_deviation D c s e a b l : 0 <= l -> l <= 1 ->
  norm2 D (qpoint (Quadratic c) s e (a + (b - a) * l)) (qlerp (qpoint (Quadratic c) s e a) (qpoint (Quadratic c) s e b) l) <=
  norm2 D (qpoint (Quadratic c) s e (halve a b)) (qlerp (qpoint (Quadratic c) s e a) (qpoint (Quadratic c) s e b) (1 # 2)).
Proof.
  intros L0 L1. set (N := norm2 D _ _) at 2.
  rewrite (norm2_scale D _ _ (qpoint (Quadratic c) s e (halve a b)) (qlerp (qpoint (Quadratic c) s e a) (qpoint (Quadratic c) s e b) (1 # 2)) (4 * l * (1 - l))).
  2:{ intros i _. unfold qpoint, qlerp, lerp, halve. cbn. unfold lerp. field. }
  fold N. assert (0 <= N) by apply norm2_nonneg.
  assert (Hk : 0 <= 4 * l * (1 - l) /\ 4 * l * (1 - l) <= 1).
  { pose proof (sq_nonneg (1 - 2 * l)). split; [|lra].
    assert (0 <= l * (1 - l)) by (apply Qmult_le_0_compat; lra). lra. }
  set (k := 4 * l * (1 - l)) in *. assert (k * k <= 1) by nra.
  assert (0 <= (1 - k * k) * N) by (apply Qmult_le_0_compat; lra). lra.
Qed.
Lemma linear_deviation D s e a b l : 
  norm2 D (qpoint (Linear _) s e (a + (b - a) * l)) (qlerp (qpoint (Linear _) s e a) (qpoint (Linear _) s e b) l) == 0.
Proof.
  rewrite (norm2_scale D _ _ s e 0); [ring|]. intros i _. unfold qpoint, qlerp, lerp. cbn. unfold lerp. ring.
Qed.
Lemma find_segment t : forall ts a b, increasing a (ts ++ [b]) -> a <= t -> t <= b ->
  exists p x y q, a :: ts ++ [b] = p ++ x :: y :: q /\ x <= t /\ t <= y /\ x < y.
Proof.
  induction ts as [|c ts IH]; intros a b I A B; cbn in I.
  - exists [], a, b, []. repeat split; auto; tauto.
  - destruct (Qlt_le_dec c t) as [L|L].
    + destruct (IH c b) as (p & x & y & q & E & X); [tauto|lra|exact B|]. exists (a :: p), x, y, q. cbn in *. rewrite E. auto.
    + exists [], a, c, (ts ++ [b]). repeat split; auto; tauto.
Qed.
Theorem flatten_error D err2 fuel cv s e out : 0 <= err2 -> (forall c1 c2, cv <> Cubic c1 c2) ->
  qflatten fuel (within D err2) cv s e = Ok out ->
  exists ts, out = map (qpoint cv s e) ts /\ increasing 0 (ts ++ [1]) /\
  forall t, 0 <= t -> t <= 1 -> exists p x y q l, 0 :: ts ++ [1] = p ++ x :: y :: q /\ 0 <= l /\ l <= 1 /\
    norm2 D (qpoint cv s e t) (qlerp (qpoint cv s e x) (qpoint cv s e y) l) <= err2.
Proof.
  intros E0 NC E. destruct (flatten_spec _ _ _ _ _ _ E) as (ts & -> & I & _ & N).
  exists ts. split; [reflexivity|]. split; [exact I|]. intros t T0 T1.
  destruct (find_segment t ts 0 1 I T0 T1) as (p & x & y & q & Ep & X & Y & XY).
  exists p, x, y, q, ((t - x) / (y - x)). split; [exact Ep|].
  assert (L0 : 0 <= (t - x) / (y - x)) by (apply Qle_shift_div_l; lra).
  assert (L1 : (t - x) / (y - x) <= 1) by (apply Qle_shift_div_r; lra).
  split; [exact L0|]. split; [exact L1|].
  specialize (N p x y q Ep). unfold ok_segment, within in N. apply Qle_bool_iff in N.
  assert (Et : t == x + (y - x) * ((t - x) / (y - x))) by (field; lra).
  set (l := (t - x) / (y - x)) in *.
  assert (Ext : forall i, qpoint cv s e t i == qpoint cv s e (x + (y - x) * l) i).
  { intros i. destruct cv; unfold qpoint, point_at, lerp; rewrite <- Et; reflexivity. }
  assert (En : norm2 D (qpoint cv s e t) (qlerp (qpoint cv s e x) (qpoint cv s e y) l) ==
     norm2 D (qpoint cv s e (x + (y - x) * l)) (qlerp (qpoint cv s e x) (qpoint cv s e y) l)).
  { transitivity (1 * 1 * norm2 D (qpoint cv s e (x + (y - x) * l)) (qlerp (qpoint cv s e x) (qpoint cv s e y) l)); [|ring].
    apply norm2_scale. intros i _. rewrite Ext. ring. }
  rewrite En. destruct cv as [|c|c1 c2].
  - rewrite linear_deviation. exact E0.
  - eapply Qle_trans; [apply quadratic_deviation; auto|exact N].
  - destruct (NC c1 c2 eq_refl).
Qed.

(** ** termination *)
Fixpoint weight (D : nat) (cv : curve Q) (s e : nat -> Q) : Q :=
  match D with O => 0 | S d => weight d cv s e + (d0 cv s e d * d0 cv s e d + d1 cv s e d * d1 cv s e d) end.
Lemma mid_bound D cv s e a b : 0 <= halve a b -> halve a b <= 1 ->
  norm2 D (qpoint cv s e (halve a b)) (qlerp (qpoint cv s e a) (qpoint cv s e b) (1 # 2)) <=
  ((b - a) * (b - a) / 8) * ((b - a) * (b - a) / 8) * weight D cv s e.
Proof.
  intros H0 H1. set (k := (b - a) * (b - a) / 8). induction D as [|D IH]; cbn [norm2 weight]; [lra|].
  rewrite mid_deviation. fold k. set (m := halve a b) in *.
  set (x := d0 cv s e D). set (y := d1 cv s e D).
  assert (C : ((1 - m) * x + m * y) * ((1 - m) * x + m * y) <= x * x + y * y).
  { assert (0 <= (1 - m) * m * ((x - y) * (x - y))).
    { apply Qmult_le_0_compat; [apply Qmult_le_0_compat; lra|apply sq_nonneg]. }
    assert (0 <= m * (x * x)) by (apply Qmult_le_0_compat; [lra|apply sq_nonneg]).
    assert (0 <= (1 - m) * (y * y)) by (apply Qmult_le_0_compat; [lra|apply sq_nonneg]). nra. }
  assert (K : 0 <= k * k) by apply sq_nonneg.
  assert (F : - k * ((1 - m) * x + m * y) * (- k * ((1 - m) * x + m * y)) == k * k * (((1 - m) * x + m * y) * ((1 - m) * x + m * y))) by ring.
  rewrite F. assert (G : k * k * (((1 - m) * x + m * y) * ((1 - m) * x + m * y)) <= k * k * (x * x + y * y)).
  { rewrite !(Qmult_comm (k * k)). apply Qmult_le_compat_r; auto. }
  lra.
Qed.
Lemma weight_nonneg D cv s e : 0 <= weight D cv s e.
Proof. induction D as [|D IH]; cbn; [lra|]. pose proof (sq_nonneg (d0 cv s e D)). pose proof (sq_nonneg (d1 cv s e D)). lra. Qed.
Lemma rec_terminates D err2 cv s e k : forall h t0 t1 lines, 0 <= t0 -> t1 <= 1 -> t0 <= t1 -> t1 - t0 == h ->
  h * h * (h * h) / 64 * weight D cv s e <= err2 * inject_Z (16 ^ Z.of_nat k) ->
  exists out, qrec (S k) (within D err2) cv s e t0 t1 lines = Ok out.
Proof.
  induction k as [|k IH]; intros h t0 t1 lines T0 T1 T01 Eh B.
  - unfold qrec. cbn [recursive_flatten].
    fold (qpoint cv s e t0) (qpoint cv s e t1) (qpoint cv s e (halve t0 t1)).
    fold (qlerp (qpoint cv s e t0) (qpoint cv s e t1) (1 # 2)).
    replace (within D err2 _ _) with true; [eexists; reflexivity|]. symmetry. apply Qle_bool_iff.
    assert (M : 0 <= halve t0 t1 /\ halve t0 t1 <= 1).
    { unfold halve. split; [apply Qle_shift_div_l|apply Qle_shift_div_r]; lra. }
    eapply Qle_trans; [apply mid_bound; tauto|]. rewrite Eh. change (inject_Z (16 ^ Z.of_nat 0)) with 1 in B.
    eapply Qle_trans; [|eapply Qle_trans; [exact B|]]; [|lra].
    apply Qle_lteq. right. field.
  - unfold qrec in *. cbn [recursive_flatten].
    fold (qpoint cv s e t0) (qpoint cv s e t1) (qpoint cv s e (halve t0 t1)).
    fold (qlerp (qpoint cv s e t0) (qpoint cv s e t1) (1 # 2)).
    destruct (within D err2 _ _); [eexists; reflexivity|].
    assert (M : t0 <= halve t0 t1 /\ halve t0 t1 <= t1).
    { unfold halve. split; [apply Qle_shift_div_l|apply Qle_shift_div_r]; lra. }
    assert (B' : h / 2 * (h / 2) * (h / 2 * (h / 2)) / 64 * weight D cv s e <= err2 * inject_Z (16 ^ Z.of_nat k)).
    { assert (F : h / 2 * (h / 2) * (h / 2 * (h / 2)) / 64 * weight D cv s e == (1 # 16) * (h * h * (h * h) / 64 * weight D cv s e)) by field.
      rewrite F. rewrite Nat2Z.inj_succ, Z.pow_succ_r, inject_Z_mult in B by lia. change (inject_Z 16) with 16 in B. lra. }
    destruct (IH (h / 2) (halve t0 t1) t1 lines) as (l1 & E1); auto; try lra.
    { unfold halve. rewrite <- Eh. field. }
    change (recursive_flatten 1 Qplus Qmult Qminus (S k) halve (1 # 2) (within D err2) cv s e (halve t0 t1) t1 lines = Ok l1) in E1.
    change (exists out, bind (recursive_flatten 1 Qplus Qmult Qminus (S k) halve (1 # 2) (within D err2) cv s e (halve t0 t1) t1 lines)
      (fun lines => recursive_flatten 1 Qplus Qmult Qminus (S k) halve (1 # 2) (within D err2) cv s e t0 (halve t0 t1) lines) = Ok out).
    rewrite E1. cbn [bind]. apply (IH (h / 2)); auto; try lra. unfold halve. rewrite <- Eh. field.
Qed.
Theorem flatten_terminates D err2 cv s e : 0 < err2 -> exists fuel out, qflatten fuel (within D err2) cv s e = Ok out.
Proof.
  intros E. set (w := weight D cv s e / 64 / err2).
  assert (W : 0 <= w).
  { unfold w. apply Qle_shift_div_l; [exact E|]. rewrite Qmult_0_l. apply Qle_shift_div_l; [lra|]. rewrite Qmult_0_l. apply weight_nonneg. }
  set (k := Z.to_nat (Qceiling w)).
  destruct (rec_terminates D err2 cv s e k 1 0 1 []) as (out & H); try lra.
  { assert (K : w <= inject_Z (16 ^ Z.of_nat k)).
    { eapply Qle_trans; [apply Qle_ceiling|]. rewrite <- Zle_Qle.
      assert (0 <= Qceiling w)%Z.
      { change 0%Z with (Qceiling (inject_Z 0)). apply Qceiling_resp_le. exact W. }
      unfold k. rewrite Z2Nat.id by auto. apply Z.lt_le_incl, Z.pow_gt_lin_r; lia. }
    assert (F : 1 * 1 * (1 * 1) / 64 * weight D cv s e == err2 * w) by (unfold w; field; lra).
    rewrite F. apply Qmult_le_l; auto. }
  exists (S k), (removelast (rev out)). unfold qflatten, flatten_casteljau. unfold qrec in H. rewrite H. reflexivity.
Qed.
(** ** the requested error is not respected by cubic edges *)
Definition s_curve : curve Q :=
  Cubic (fun i => match i with O => 1 | _ => 3 end) (fun i => match i with O => 2 | _ => -3 end).
Definition s_start : nat -> Q := fun _ => 0.
Definition s_stop : nat -> Q := fun i => match i with O => 3 | _ => 0 end.
Theorem cubic_error : qflatten 1 (within 2 (1 # 100)) s_curve s_start s_stop = Ok [] /\
  forall l, (1 # 2) < norm2 2 (qpoint s_curve s_start s_stop (1 # 4)) (qlerp s_start s_stop l).
Proof.
  split; [vm_compute; reflexivity|]. intros l. cbn [norm2].
  set (x := qpoint s_curve s_start s_stop (1 # 4) 0%nat - qlerp s_start s_stop l 0%nat).
  assert (Y : qpoint s_curve s_start s_stop (1 # 4) 1%nat - qlerp s_start s_stop l 1%nat == 27 # 32).
  { unfold qlerp, lerp, s_start, s_stop. setoid_replace (qpoint s_curve (fun _ : nat => 0) (fun i => match i with O => 3 | _ => 0 end) (1 # 4) 1%nat) with (27 # 32) by (vm_compute; reflexivity). ring. }
  rewrite Y. assert (0 <= x * x) by apply sq_nonneg. lra.
Qed.

(** ** convex hull and uniform flattening *)
Lemma curve_hull cv s e t : 0 <= t -> t <= 1 -> exists ws,
  length ws = length (controls cv s e) /\ Forall (fun w => 0 <= w) ws /\ sum 0 Qplus ws == 1 /\
  forall i, qpoint cv s e t i == sum 0 Qplus (map (fun wc => fst wc * snd wc i) (combine ws (controls cv s e))).
Proof.
  intros T0 T1. assert (S0 : 0 <= 1 - t) by lra.
  destruct cv as [|c|c1 c2].
  - exists [1 - t; t]. split; [reflexivity|]. split; [repeat constructor; auto|]. split; [cbn; ring|].
    intros i. unfold qpoint. cbn. unfold lerp. ring.
  - exists [(1 - t) * (1 - t); 2 * ((1 - t) * t); t * t]. split; [reflexivity|]. split.
    { repeat constructor; repeat apply Qmult_le_0_compat; auto; lra. }
    split; [cbn; ring|]. intros i. unfold qpoint. cbn. ring.
  - exists [(1 - t) * (1 - t) * (1 - t); 3 * ((1 - t) * (1 - t) * t); 3 * ((1 - t) * t * t); t * t * t].
    split; [reflexivity|]. split.
    { repeat constructor; repeat apply Qmult_le_0_compat; auto; lra. }
    split; [cbn; ring|]. intros i. unfold qpoint. cbn. ring.
Qed.
Definition frac (i n : nat) : Q := inject_Z (Z.of_nat i) / inject_Z (Z.of_nat n).
Definition uniform := flatten_uniform 1 Qplus Qmult Qminus frac.
Lemma frac_step n i : (0 < n)%nat -> frac (S i) n - frac i n == 1 / inject_Z (Z.of_nat n).
Proof.
  intros H. unfold frac. rewrite Nat2Z.inj_succ, <- Z.add_1_r, inject_Z_plus. change (inject_Z 1) with 1. field.
  intros E. change 0 with (inject_Z 0) in E. rewrite inject_Z_injective in E. lia.
Qed.
Lemma frac_pos n : (0 < n)%nat -> 0 < 1 / inject_Z (Z.of_nat n).
Proof.
  intros H. apply Qlt_shift_div_l; [change 0 with (inject_Z 0); rewrite <- Zlt_Qlt; lia|]. lra.
Qed.
Lemma uniform_params n : (0 < n)%nat -> forall k i a b, (i + k + 1 = n)%nat -> a == frac i n -> b == 1 ->
  let ts := map (fun j => frac (j + 1) n) (seq i k) in
  increasing a (ts ++ [b]) /\ neighbours (fun x y => y - x == 1 / inject_Z (Z.of_nat n)) (a :: ts ++ [b]).
Proof.
  intros Hn. assert (One : frac n n == 1).
  { unfold frac. field. intros E. change 0 with (inject_Z 0) in E. rewrite inject_Z_injective in E. lia. }
  pose proof (frac_pos n Hn) as Pn.
  induction k as [|k IH]; intros i a b E A B; cbn [seq map app].
  - pose proof (frac_step n i Hn) as St. replace (S i) with n in St by lia.
    assert (D : b - a == 1 / inject_Z (Z.of_nat n)) by (rewrite A, B; rewrite One in St; exact St).
    split; [cbn; split; [lra|exact I]|]. intros [|x [|y p]] u v q Eq; cbn in Eq; try discriminate.
    + injection Eq as <- <- _. exact D.
    + injection Eq as _ _ Eq. destruct p; discriminate Eq.
  - pose proof (frac_step n i Hn) as St. replace (S i) with (i + 1)%nat in St by lia.
    destruct (IH (S i) (frac (i + 1) n) b) as [I1 N1]; [lia|replace (i + 1)%nat with (S i) by lia; reflexivity|exact B|].
    split.
    + cbn. split; [rewrite A; lra|exact I1].
    + apply neighbours_cons. split; [rewrite A; exact St|exact N1].
Qed.
Lemma uniform_ok cv s e n :
  match uniform cv s e n with
  | Ok out => (n > 0)%nat /\ exists ts, out = map (qpoint cv s e) ts /\ length ts = (n - 1)%nat /\ increasing 0 (ts ++ [1]) /\
      neighbours (fun a b => b - a == 1 / inject_Z (Z.of_nat n)) (0 :: ts ++ [1])
  | Panic => n = 0%nat
  | Diverge => False
  end.
Proof.
  unfold uniform, flatten_uniform, assert. destruct (Nat.ltb_spec 0 n) as [H|H].
  - split; [lia|]. exists (map (fun j => frac (j + 1) n) (seq 0 (n - 1))).
    split; [rewrite map_map; reflexivity|]. split; [rewrite map_length, seq_length; reflexivity|].
    apply uniform_params; auto; [lia| |reflexivity].
    unfold frac. change (inject_Z (Z.of_nat 0)) with 0. field.
    intros E. change 0 with (inject_Z 0) in E. rewrite inject_Z_injective in E. lia.
  - lia.
Qed.
