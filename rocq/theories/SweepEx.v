(** A simple polygon on which the sweep panics, and examples. *)
From Coq Require Import List Arith Bool QArith Lqa Lia.
From Verif Require Import Base Mesh Tess Monotone GeoSpec Geo Sweep PolySpec.
Import ListNotations.
Set Implicit Arguments.
Unset Strict Implicit.
Local Open Scope nat_scope.

(** a regular vertex on the left, then a split vertex *)
Definition dart_z : list (Z * Z) := [(0, 10); (-5, 5); (-6, 0); (0, 3); (6, 0)]%Z.
Definition dart : list pt := map (fun p => (inject_Z (fst p), inject_Z (snd p))) dart_z.
Definition dart_vs : list (pt * nat) := combine dart (seq 0 5).

Lemma dart_simple : simple_polygon dart.
Proof.
  split; [cbn; lia|]. cbn [length dart dart_z map]. intros i j p Hi Hj N (t & T0 & T1 & X & Y) (s & S0 & S1 & X' & Y').
  do 5 (destruct i as [|i]; [do 5 (destruct j as [|j]; [clear Hi Hj; try congruence; cbn in *;
    try (exfalso; unfold inject_Z in *; lra);
    first [left; split; [reflexivity|]; split; cbn; unfold inject_Z in *; lra
          |right; split; [reflexivity|]; split; cbn; unfold inject_Z in *; lra]
    |]); lia|]); lia.
Qed.
Lemma dart_ccw : (0 < area2 dart)%Q.
Proof. reflexivity. Qed.


(** comparisons with a tolerance below one, for integers *)
Section Int.
  Variable tol : Q.
  Hypothesis tol01 : (0 <= tol < 1)%Q.
  Lemma int_cases z : (z <= -1)%Z \/ z = 0%Z \/ (1 <= z)%Z. Proof. lia. Qed.
  Lemma inj_le a b : (a <= b)%Z -> (inject_Z a <= inject_Z b)%Q. Proof. rewrite <- Zle_Qle. auto. Qed.
  Lemma lt_int q z : (q == inject_Z z)%Q -> Qlt_b tol q = (0 <? z)%Z.
  Proof.
    intros E. unfold Qlt_b. destruct (Z.ltb_spec 0 z) as [H|H].
    - destruct (Qle_bool q tol) eqn:B; auto. apply Qle_bool_iff in B. assert (X := @inj_le 1 z ltac:(lia)). unfold inject_Z at 1 in X. exfalso. lra.
    - assert (X := @inj_le z 0 ltac:(lia)). unfold inject_Z at 2 in X. rewrite (proj2 (Qle_bool_iff q tol)); auto. lra.
  Qed.
  Lemma lt_neg q z : (q == inject_Z z)%Q -> Qlt_b q (- tol) = (z <? 0)%Z.
  Proof.
    intros E. unfold Qlt_b. destruct (Z.ltb_spec z 0) as [H|H].
    - destruct (Qle_bool (- tol) q) eqn:B; auto. apply Qle_bool_iff in B. assert (X := @inj_le z (-1) ltac:(lia)). unfold inject_Z at 2 in X. exfalso. lra.
    - assert (X := @inj_le 0 z ltac:(lia)). unfold inject_Z at 1 in X. rewrite (proj2 (Qle_bool_iff (- tol) q)); auto. lra.
  Qed.
  Lemma abs_int q z : (q == inject_Z z)%Q -> (Qabs.Qabs q == inject_Z (Z.abs z))%Q.
  Proof. intros ->. reflexivity. Qed.
  Lemma le_abs q z t : (q == inject_Z z)%Q -> (0 <= t < 2)%Q -> (1 < Z.abs z)%Z \/ z = 0%Z -> Qle_bool (Qabs.Qabs q) t = (z =? 0)%Z.
  Proof.
    intros E T C. apply abs_int in E. destruct C as [C|C].
    - destruct (Z.eqb_spec z 0); [lia|]. destruct (Qle_bool (Qabs.Qabs q) t) eqn:B; auto. apply Qle_bool_iff in B.
      assert (X := @inj_le 2 (Z.abs z) ltac:(lia)). unfold inject_Z at 1 in X. exfalso. lra.
    - subst z. cbn in E. apply Qle_bool_iff. unfold inject_Z in E. lra.
  Qed.
End Int.
Notation ip p := (inject_Z (fst p), inject_Z (snd p)).
Lemma classify_int tol (tol01 : (0 <= tol < 1)%Q) (p h q : Z * Z) : let cross := ((fst h - fst p) * (snd q - snd h) - (snd h - snd p) * (fst q - fst h))%Z in
  (1 < Z.abs cross)%Z \/ cross = 0%Z -> classify tol (ip p) (ip h) (ip q) = classify 0 (ip p) (ip h) (ip q).
Proof.
  intros cross C. unfold classify, perp_dot, vsub. cbn [fst snd].
  set (c := (_ * _ - _ * _)%Q). 
  assert (Ec : (c == inject_Z cross)%Q).
  { unfold c, cross. unfold Z.sub, Qminus. rewrite ?inject_Z_plus, ?inject_Z_opp, ?inject_Z_mult, ?inject_Z_plus, ?inject_Z_opp. reflexivity. }
  assert (Es : forall x y, (inject_Z x - inject_Z y == inject_Z (x - y))%Q).
  { intros x y. unfold Z.sub. rewrite inject_Z_plus, inject_Z_opp. reflexivity. }
  assert (O : (0 <= 0 < 1)%Q) by lra.
  rewrite !(lt_int tol01 (Es _ _)), !(lt_int tol01 Ec), !(lt_neg tol01 Ec).
  rewrite !(lt_int O (Es _ _)), !(lt_int O Ec), !(lt_neg O Ec).
  rewrite !(le_abs Ec) by (auto; lra). reflexivity.
Qed.

Lemma dart_events tol : (0 <= tol < 1)%Q -> mapM (classify_at dart_vs tol) (seq 0 5) = mapM (classify_at dart_vs 0) (seq 0 5).
Proof.
  intros H. 
  assert (E : forall t i, i < 5 -> classify_at dart_vs t i = Ok (mkEv i (prev_of 5 i) (next_of 5 i)
    (classify t (ip (nth (prev_of 5 i) dart_z (0, 0)%Z)) (ip (nth i dart_z (0, 0)%Z)) (ip (nth (next_of 5 i) dart_z (0, 0)%Z))))).
  { intros t i Hi. do 5 (destruct i as [|i]; [reflexivity|]). lia. }
  assert (C : forall i, i < 5 -> classify_at dart_vs tol i = classify_at dart_vs 0 i).
  { intros i Hi. rewrite !E by auto. do 2 f_equal. apply classify_int; auto. left.
    do 5 (destruct i as [|i]; [reflexivity|]). lia. }
  cbn [seq mapM]. rewrite !C by lia. reflexivity.
Qed.

Definition panicked {A} (r : res A) : bool := match r with Panic => true | _ => false end.
Lemma panics A (r : res A) : panicked r = true -> r = Panic. Proof. destruct r; try discriminate; auto. Qed.
(** all three triangulators ask for the last vertex of the right chain, which is still empty *)
Lemma dart_linear tol dbg apos aneg ix : (0 <= tol < 1)%Q ->
  sweep_small dart_vs (linear dart_vs apos aneg) dbg tol ix = Panic.
Proof. intros H. unfold sweep_small. change (length dart_vs) with 5. rewrite dart_events by auto. apply panics; destruct dbg; vm_compute; reflexivity. Qed.
Lemma dart_dynamic tol dbg small weight ix : (0 <= tol < 1)%Q ->
  sweep_small dart_vs (dynamic dart_vs small weight) dbg tol ix = Panic.
Proof. intros H. unfold sweep_small. change (length dart_vs) with 5. rewrite dart_events by auto. apply panics; destruct dbg; vm_compute; reflexivity. Qed.
Lemma dart_delaunay tol dbg dbg' apos aneg convex incircle ix : (0 <= tol < 1)%Q ->
  sweep_small dart_vs (delaunay dbg' dart_vs apos aneg convex incircle) dbg tol ix = Panic.
Proof. intros H. unfold sweep_small. change (length dart_vs) with 5. rewrite dart_events by auto. apply panics; destruct dbg, dbg'; vm_compute; reflexivity. Qed.
