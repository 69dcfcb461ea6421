(** The zigzag is a simple polygon all of whose corners are events of the sweep line. *)
From Coq Require Import List Arith Lia Bool QArith Qabs Lqa Qfield.
From Verif Require Import Base GeoSpec PolySpec Geo Sweep Zigzag.
Import ListNotations.
Set Implicit Arguments.
Unset Strict Implicit.
Local Open Scope Q_scope.

(** 1, -1, 1, ... *)
Definition sg (k : nat) : Q := if Nat.even k then 1 else -1.
Lemma sg_S k : sg (S k) == - sg k.
Proof. unfold sg. rewrite Nat.even_succ, <- Nat.negb_even. destruct (Nat.even k); reflexivity. Qed.
Lemma sg_cases k : sg k = 1 \/ sg k = -1.
Proof. unfold sg. destruct (Nat.even k); auto. Qed.
Lemma of_nat_S k : of_nat (S k) == of_nat k + 1.
Proof. unfold of_nat. rewrite Nat2Z.inj_succ. unfold Z.succ. rewrite inject_Z_plus. reflexivity. Qed.
Lemma of_nat_le a b : (a <= b)%nat <-> of_nat a <= of_nat b.
Proof. unfold of_nat. rewrite <- Zle_Qle. lia. Qed.
Lemma of_nat_lt a b : (a < b)%nat <-> of_nat a < of_nat b.
Proof. unfold of_nat. rewrite <- Zlt_Qlt. lia. Qed.
Lemma of_nat_sub a b : (b <= a)%nat -> of_nat (a - b) == of_nat a - of_nat b.
Proof. intros L. unfold of_nat. rewrite Nat2Z.inj_sub by auto. unfold Z.sub. rewrite inject_Z_plus, inject_Z_opp. reflexivity. Qed.

  Lemma even_mod i : (i mod 2 =? 0)%nat = Nat.even i.
  Proof.
    destruct (Nat.even i) eqn:E.
    - apply Nat.even_spec in E as (k & ->). rewrite Nat.mul_comm, Nat.mod_mul by lia. reflexivity.
    - assert (O : Nat.odd i = true) by (rewrite <- Nat.negb_even, E; auto). apply Nat.odd_spec in O as (k & ->).
      rewrite Nat.add_comm, Nat.mul_comm, Nat.mod_add by lia. reflexivity.
  Qed.

  Lemma sg_even i k : sg (2 * k - i) = sg i \/ (2 * k < i)%nat.
  Proof.
    destruct (Nat.le_gt_cases i (2 * k)) as [L|]; [left|right; lia]. unfold sg.
    replace (Nat.even (2 * k - i)) with (Nat.even i); auto. rewrite Nat.even_sub by auto. rewrite Nat.even_mul. cbn [Nat.even orb]. destruct (Nat.even i); auto.
  Qed.

Section Zigzag.
  Variable n : nat.
  Hypothesis n2 : (2 <= n)%nat.
  Notation h := (of_nat (n / 2)).
  Lemma h_pos : 0 < h.
  Proof. change 0 with (of_nat 0). apply of_nat_lt. apply Nat.div_str_pos. lia. Qed.

  Definition column (i : nat) : nat := if (n <? i)%nat then 2 * n - i else i.
  Definition lift (i : nat) : Q := if (n <? i)%nat then 1 else 0.
  Definition zz (i : nat) : pt := (of_nat (column i) / h - 1, sg i + lift i).
  Definition points : list pt := map zz (seq 0 (2 * n)).

  Lemma points_length : length points = (2 * n)%nat.
  Proof. unfold points. rewrite map_length, seq_length. auto. Qed.
  Lemma at_points i : (i < 2 * n)%nat -> nth i points (0, 0) = zz i.
  Proof.
    intros L. unfold points. rewrite (nth_indep _ _ (zz 0)) by (rewrite map_length, seq_length; auto).
    rewrite map_nth, seq_nth by auto. reflexivity.
  Qed.
  Definition nxt (i : nat) : nat := if (S i =? 2 * n)%nat then 0%nat else S i.
  Lemma nxt_mod i : (i < 2 * n)%nat -> (S i mod (2 * n))%nat = nxt i.
  Proof. intros L. unfold nxt. destruct (Nat.eqb_spec (S i) (2 * n)) as [->|N]; [apply Nat.mod_same; lia|apply Nat.mod_small; lia]. Qed.

  (** the side as a graph over one unit of the first coordinate, in coordinates without scale *)
  Definition col_side (i : nat) : nat := if (i <? n)%nat then i else 2 * n - 1 - i.
  (** height of the lower and upper chain *)
  Definition up (k : nat) : Q := if (k =? 0)%nat || (k =? n)%nat then sg k else sg k + 1.
  Definition height (i k : nat) : Q := if (i <? n)%nat then sg k else up k.
  Lemma side_graph i p : (i < 2 * n)%nat -> on_segment (zz i) (zz (nxt i)) p ->
    exists t, 0 <= t /\ t <= 1 /\ (fst p + 1) * h == of_nat (col_side i) + t /\
      snd p == (1 - t) * height i (col_side i) + t * height i (S (col_side i)).
  Proof.
    intros L (t & T0 & T1 & EX & EY). cbn [fst snd] in EX, EY. pose proof h_pos as HP.
    assert (NX : (fst p + 1) * h == of_nat (column i) + t * (of_nat (column (nxt i)) - of_nat (column i))).
    { rewrite EX. unfold zz. cbn [fst]. field. lra. }
    unfold zz in EY. cbn [snd] in EY. clear EX. unfold col_side, height.
    destruct (Nat.ltb_spec i n) as [LT|GE].
    - assert (nxt i = S i) as E by (unfold nxt; destruct (Nat.eqb_spec (S i) (2 * n)); lia). rewrite E in *. clear E.
      unfold column, lift in *. destruct (Nat.ltb_spec n i); [lia|]. destruct (Nat.ltb_spec n (S i)); [lia|].
      exists t. split; auto. split; auto. rewrite of_nat_S in NX. split; [lra|]. rewrite EY. ring.
    - assert (K : exists k, (k < n /\ i = 2 * n - 1 - k)%nat) by (exists (2 * n - 1 - i)%nat; lia). destruct K as (k & LK & EI).
      assert (CI : column i = S k). { unfold column. destruct (Nat.ltb_spec n i); lia. }
      assert (CN : column (nxt i) = k). { unfold column, nxt. destruct (Nat.eqb_spec (S i) (2 * n)); destruct (Nat.ltb_spec n 0); try lia; destruct (Nat.ltb_spec n (S i)); lia. }
      replace (2 * n - 1 - i)%nat with k by lia. rewrite CI, CN, of_nat_S in NX.
      assert (HI : sg i + lift i == up (S k)).
      { unfold lift, up. assert (sg i = sg (S k)) as -> by (rewrite EI; destruct (sg_even (S k) n) as [X|X]; [|lia]; rewrite <- X; f_equal; lia).
        change (S k =? 0)%nat with false. cbn [orb]. destruct (Nat.ltb_spec n i), (Nat.eqb_spec (S k) n); try lia; ring. }
      assert (HN : sg (nxt i) + lift (nxt i) == up k).
      { unfold lift, up, nxt. destruct (Nat.eqb_spec (S i) (2 * n)) as [E|E].
        - assert (k = 0%nat) as -> by lia. cbn [Nat.eqb orb]. destruct (Nat.ltb_spec n 0); [lia|]. ring.
        - assert (sg (S i) = sg k) as -> by (destruct (sg_even k n) as [X|X]; [|lia]; rewrite <- X; f_equal; lia).
          destruct (Nat.eqb_spec k 0); [lia|]. destruct (Nat.eqb_spec k n); [lia|]. cbn [orb]. destruct (Nat.ltb_spec n (S i)); [|lia]. ring. }
      exists (1 - t). split; [lra|]. split; [lra|]. split; [lra|]. rewrite EY, HI, HN. ring.
  Qed.
  Lemma corner_at i p k : (i < 2 * n)%nat -> column i = k -> (fst p + 1) * h == of_nat k -> snd p == sg i + lift i -> same_pt p (zz i).
  Proof.
    intros L <- EX EY. split; cbn [zz fst snd]; [|exact EY]. rewrite <- EX. pose proof h_pos. field. lra.
  Qed.

  Lemma zigzag_simple : simple_polygon points.
  Proof.
    unfold simple_polygon. rewrite points_length. split; [lia|]. intros i j p Li Lj NE SI SJ.
    rewrite (Nat.mod_small i), (Nat.mod_small j), !nxt_mod in * by lia.
    assert (LN : forall k, (k < 2 * n)%nat -> (nxt k < 2 * n)%nat) by (intros k L; unfold nxt; destruct (Nat.eqb_spec (S k) (2 * n)); lia).
    rewrite !at_points in * by auto.
    (* by symmetry i < j *)
    assert (K : forall i j, (i < j < 2 * n)%nat -> on_segment (zz i) (zz (nxt i)) p -> on_segment (zz j) (zz (nxt j)) p ->
      (j = nxt i /\ same_pt p (zz j)) \/ (i = nxt j /\ same_pt p (zz i))).
    2: { destruct (Nat.lt_total i j) as [L|[L|L]]; [apply K; auto; lia|lia|]. destruct (K j i) as [[A B]|[A B]]; auto; lia. }
    clear i j Li Lj NE SI SJ. intros i j L SI SJ.
    destruct (side_graph (i := i) (p := p)) as (t & T0 & T1 & TX & TY); [lia|auto|]. destruct (side_graph (i := j) (p := p)) as (u & U0 & U1 & UX & UY); [lia|auto|].
    clear SI SJ. unfold col_side, height in *. rewrite TX in UX. rewrite TY in UY.
    destruct (Nat.ltb_spec j n) as [LJ|LJ].
    - (* both lower *)
      destruct (Nat.ltb_spec i n); [|lia].
      assert (C : (j = S i)%nat). { assert (of_nat j <= of_nat (S i)) by (rewrite of_nat_S; lra). apply of_nat_le in H0. lia. }
      subst j. rewrite of_nat_S in UX. left. split; [unfold nxt; destruct (Nat.eqb_spec (S i) (2 * n)); lia|].
      assert (t == 1) by lra. apply corner_at with (k := S i); [lia|unfold column; destruct (Nat.ltb_spec n (S i)); lia|rewrite TX, of_nat_S; lra|].
      rewrite TY, H0. unfold lift. destruct (Nat.ltb_spec n (S i)); [lia|]. ring.
    - destruct (Nat.ltb_spec i n) as [LI|LI].
      + (* one lower, one upper *)
        assert (K : exists k, (k < n /\ j = 2 * n - 1 - k)%nat) by (exists (2 * n - 1 - j)%nat; lia). destruct K as (k & LK & EJ).
        replace (2 * n - 1 - j)%nat with k in * by lia.
        destruct (Nat.lt_total i k) as [LT|[EQ|GT]].
        * exfalso. assert (C : (k = S i)%nat). { assert (of_nat k <= of_nat (S i)) by (rewrite of_nat_S; lra). apply of_nat_le in H. lia. }
          subst k. rewrite of_nat_S in UX. assert (E1 : t == 1) by lra. assert (E2 : u == 0) by lra. rewrite E1, E2 in UY. unfold up in UY.
          destruct (Nat.eqb_spec (S i) n); [lia|]. cbn [Nat.eqb orb] in UY. lra.
        * subst k. assert (E : t == u) by lra. rewrite <- E in UY. unfold up in UY.
          destruct (Nat.eqb_spec i n); [lia|]. change (S i =? 0)%nat with false in UY. cbn [orb] in UY. rewrite orb_false_r in UY.
          destruct (Nat.eqb_spec i 0) as [->|N0].
          -- destruct (Nat.eqb_spec 1 n); [lia|]. assert (t == 0) by lra. right. split; [unfold nxt; destruct (Nat.eqb_spec (S j) (2 * n)); lia|].
             apply corner_at with (k := 0%nat); [lia|reflexivity|rewrite TX, H; reflexivity|]. rewrite TY, H. unfold lift. destruct (Nat.ltb_spec n 0); [lia|]. ring.
          -- destruct (Nat.eqb_spec (S i) n) as [EN|NN]; [|exfalso; lra]. assert (t == 1) by lra. left. split; [unfold nxt; destruct (Nat.eqb_spec (S i) (2 * n)); lia|].
             assert (j = S i) as -> by lia. apply corner_at with (k := S i); [lia|unfold column; destruct (Nat.ltb_spec n (S i)); lia|rewrite TX, of_nat_S, H; reflexivity|].
             rewrite TY, H. unfold lift. destruct (Nat.ltb_spec n (S i)); [lia|]. ring.
        * exfalso. assert (C : (i = S k)%nat). { assert (of_nat i <= of_nat (S k)) by (rewrite of_nat_S; lra). apply of_nat_le in H. lia. }
          subst i. rewrite of_nat_S in UX. assert (E1 : t == 0) by lra. assert (E2 : u == 1) by lra. rewrite E1, E2 in UY. unfold up in UY.
          destruct (Nat.eqb_spec (S k) n); [lia|]. cbn [Nat.eqb orb] in UY. lra.
      + (* both upper *)
        assert (K : exists k, (S k < n /\ j = 2 * n - 1 - k)%nat) by (exists (2 * n - 1 - j)%nat; lia). destruct K as (k & LK & EJ).
        assert (K : exists k', (k < k' < n /\ i = 2 * n - 1 - k')%nat) by (exists (2 * n - 1 - i)%nat; lia). destruct K as (k' & LK' & EI).
        replace (2 * n - 1 - j)%nat with k in * by lia. replace (2 * n - 1 - i)%nat with k' in * by lia.
        assert (C : (k' = S k)%nat). { assert (of_nat k' <= of_nat (S k)) by (rewrite of_nat_S; lra). apply of_nat_le in H. lia. }
        subst k'. rewrite of_nat_S in UX. assert (E1 : t == 0) by lra. left. split; [unfold nxt; destruct (Nat.eqb_spec (S i) (2 * n)); lia|].
        apply corner_at with (k := S k); [lia|unfold column; destruct (Nat.ltb_spec n j); lia|rewrite TX, E1; ring|].
        rewrite TY, E1. unfold lift, up. destruct (Nat.eqb_spec (S k) n); [lia|]. cbn [Nat.eqb orb]. destruct (Nat.ltb_spec n j); [|lia].
        assert (sg j = sg (S k)) as -> by (destruct (sg_even (S k) n) as [X|X]; [|lia]; rewrite <- X; f_equal; lia). ring.
  Qed.

  (** ** Area *)
  Definition term (i : nat) : Q := fst (zz i) * snd (zz (nxt i)) - fst (zz (nxt i)) * snd (zz i).
  Definition total (k : nat) : Q := fold_right Qplus 0 (map term (seq 0 k)).
  Lemma total_S k : total (S k) == total k + term k.
  Proof.
    unfold total. rewrite seq_S, map_app. cbn [map].
    assert (G : forall l x, fold_right Qplus 0 (l ++ [x]) == fold_right Qplus 0 l + x) by (induction l as [|y l IH]; intros x; cbn; [ring|rewrite IH; ring]).
    apply G.
  Qed.
  Lemma total_lower k : (k <= n)%nat -> total k == sg k * of_nat k / h + 1 - sg k.
  Proof.
    pose proof h_pos as HP. induction k as [|k IH]; intros L.
    - change (total 0) with 0. change (sg 0) with 1. change (of_nat 0) with 0. field. lra.
    - rewrite total_S, IH by lia. unfold term, zz, column, lift, nxt. destruct (Nat.eqb_spec (S k) (2 * n)); [lia|]. destruct (Nat.ltb_spec n k); [lia|]. destruct (Nat.ltb_spec n (S k)); [lia|].
      cbn [fst snd]. rewrite sg_S, of_nat_S. field. lra.
  Qed.
  (** after the corner of the upper chain in column [a] *)
  Lemma total_upper m : (1 <= m < n)%nat -> let a := (n - m)%nat in
    total (n + m) == (of_nat a * sg a - of_nat a) / h - sg a + (2 * of_nat n - 1) / h.
  Proof.
    pose proof h_pos as HP. cbv zeta. induction m as [|m IH]; intros L; [lia|]. destruct (Nat.eq_dec m 0) as [->|N].
    - rewrite Nat.add_1_r, total_S, total_lower by lia. unfold term, zz, column, lift, nxt. destruct (Nat.eqb_spec (S n) (2 * n)); [lia|]. destruct (Nat.ltb_spec n n); [lia|]. destruct (Nat.ltb_spec n (S n)); [|lia].
      cbn [fst snd]. replace (2 * n - S n)%nat with (n - 1)%nat by lia. assert (E : sg n == - sg (n - 1)) by (rewrite <- sg_S; replace (S (n - 1)) with n by lia; reflexivity).
      rewrite sg_S, E, of_nat_sub by lia. change (of_nat 1) with 1. field. lra.
    - replace (n + S m)%nat with (S (n + m)) by lia. rewrite total_S, IH by lia. unfold term, zz, column, lift, nxt. destruct (Nat.eqb_spec (S (n + m)) (2 * n)); [lia|]. destruct (Nat.ltb_spec n (n + m)); [|lia]. destruct (Nat.ltb_spec n (S (n + m))); [|lia].
      cbn [fst snd]. replace (2 * n - (n + m))%nat with (n - m)%nat by lia. replace (2 * n - S (n + m))%nat with (n - S m)%nat by lia.
      assert (E1 : sg (n + m) = sg (n - m)) by (destruct (sg_even (n + m) n) as [X|X]; [|lia]; rewrite <- X; f_equal; lia).
      assert (E2 : sg (n - m) == - sg (n - S m)) by (rewrite <- sg_S; replace (S (n - S m)) with (n - m)%nat by lia; reflexivity).
      rewrite sg_S, E1, E2. replace (n - m)%nat with (S (n - S m)) by lia. rewrite of_nat_S. field. lra.
  Qed.
  Lemma zigzag_area : area2 points == 2 * (of_nat n - 1) / h.
  Proof.
    pose proof h_pos as HP.
    assert (E : area2 points == total (2 * n)).
    { unfold area2. rewrite points_length. unfold total. 
      assert (G : forall l, (forall i, In i l -> (i < 2 * n)%nat) -> fold_right Qplus 0 (map (fun i => fst (nth (i mod (2 * n)) points (0, 0)) * snd (nth (S i mod (2 * n)) points (0, 0)) - fst (nth (S i mod (2 * n)) points (0, 0)) * snd (nth (i mod (2 * n)) points (0, 0))) l) == fold_right Qplus 0 (map term l)).
      { induction l as [|i l IH]; intros H; cbn [map fold_right]; [reflexivity|]. rewrite IH by (intros j J; apply H; right; auto).
        pose proof (H i (or_introl eq_refl)) as L. rewrite nxt_mod, (Nat.mod_small i) by lia. assert (nxt i < 2 * n)%nat by (unfold nxt; destruct (Nat.eqb_spec (S i) (2 * n)); lia). rewrite !at_points by auto. reflexivity. }
      apply G. intros i I. apply in_seq in I. lia. }
    rewrite E. replace (2 * n)%nat with (S (n + (n - 1))) by lia. rewrite total_S, total_upper by lia. replace (n - (n - 1))%nat with 1%nat by lia.
    unfold term, zz, column, lift, nxt. destruct (Nat.eqb_spec (S (n + (n - 1))) (2 * n)); [|lia]. destruct (Nat.ltb_spec n 0); [lia|]. destruct (Nat.ltb_spec n (n + (n - 1))); [|lia].
    cbn [fst snd]. replace (2 * n - (n + (n - 1)))%nat with 1%nat by lia. assert (sg (n + (n - 1)) = sg 1) as -> by (destruct (sg_even 1 n) as [X|X]; [|lia]; rewrite <- X; f_equal; lia).
    change (sg 0) with 1. change (sg 1) with (-1). change (of_nat 0) with 0. change (of_nat 1) with 1. field. lra.
  Qed.
End Zigzag.

(** ** The events of the sweep line *)
Lemma Qlt_b_true a b : a < b -> Qlt_b a b = true.
Proof. intros L. unfold Qlt_b. destruct (Qle_bool b a) eqn:E; auto. apply Qle_bool_iff in E. exfalso. lra. Qed.
Lemma Qlt_b_false a b : b <= a -> Qlt_b a b = false.
Proof. intros L. unfold Qlt_b. apply Qle_bool_iff in L. rewrite L. reflexivity. Qed.
Lemma Qle_b_false a b : b < a -> Qle_bool a b = false.
Proof. intros L. destruct (Qle_bool a b) eqn:E; auto. apply Qle_bool_iff in E. exfalso. lra. Qed.
Definition bend (p h q : pt) : Q := (fst h - fst p) * (snd q - snd h) - (snd h - snd p) * (fst q - fst h).
Lemma classify_top tol p h q : 0 <= tol -> tol < snd h - snd p -> tol < snd h - snd q ->
  (tol < bend p h q -> classify tol p h q = VStart) /\ (bend p h q < - tol -> classify tol p h q = VSplit).
Proof.
  intros T A B. unfold classify. rewrite (Qlt_b_true A), (Qlt_b_true B). cbn [andb orb]. split; intros C.
  - rewrite Qlt_b_true by exact C. reflexivity.
  - rewrite Qlt_b_false by (change (bend p h q <= tol); lra). rewrite Qlt_b_true by exact C. reflexivity.
Qed.
Lemma classify_bottom tol p h q : 0 <= tol -> tol < snd p - snd h -> tol < snd q - snd h ->
  (tol < bend p h q -> classify tol p h q = VEnd) /\ (bend p h q < - tol -> classify tol p h q = VMerge).
Proof.
  intros T A B. unfold classify. rewrite (Qlt_b_true A), (Qlt_b_true B). rewrite (@Qlt_b_false tol (snd h - snd p)) by lra. cbn [andb orb]. split; intros C.
  - rewrite Qle_b_false. 2: { change (tol < Qabs (bend p h q)). rewrite Qabs_pos by lra. exact C. }
    rewrite Qlt_b_true by exact C. reflexivity.
  - rewrite Qle_b_false. 2: { change (tol < Qabs (bend p h q)). rewrite Qabs_neg by lra. lra. }
    rewrite Qlt_b_false by (change (bend p h q <= tol); lra). rewrite Qlt_b_true by exact C. reflexivity.
Qed.

Section Events.
  Variable n : nat.
  Hypothesis n2 : (2 <= n)%nat.
  Notation h := (of_nat (n / 2)).
  Variable tol : Q.
  Hypothesis t0 : 0 <= tol.
  Hypothesis t1 : tol < 1 / h.
  Let HP : 0 < h := h_pos n2.
  Notation u := (1 / h).
  Lemma u_pos : 0 < u.
  Proof. unfold Qdiv. rewrite Qmult_1_l. apply Qinv_lt_0_compat. exact HP. Qed.
  Lemma u_le : u <= 1.
  Proof.
    apply Qle_shift_div_r; [exact HP|]. rewrite Qmult_1_l. change 1 with (of_nat 1). apply of_nat_le. apply Nat.div_str_pos. lia.
  Qed.
  Definition kind (i : nat) : vtype :=
    if (i =? 0)%nat then VStart else if (i <? n)%nat then (if Nat.even i then VSplit else VEnd)
    else if (i =? n)%nat then (if Nat.even i then VStart else VEnd) else if Nat.even i then VStart else VMerge.
  Lemma sgS k : snd (zz n (S k)) = sg (S k) + lift n (S k).
  Proof. reflexivity. Qed.
  Definition prv (i : nat) : nat := if (i =? 0)%nat then (2 * n - 1)%nat else (i - 1)%nat.
  Lemma zigzag_kind i : (i < 2 * n)%nat -> classify tol (zz n (prv i)) (zz n i) (zz n (nxt n i)) = kind i.
  Proof.
    intros L. pose proof u_pos as UP. pose proof u_le as UL. unfold kind.
    assert (DX : forall a b, of_nat a / h - 1 - (of_nat b / h - 1) == (of_nat a - of_nat b) * u) by (intros a b; field; lra).
    pose proof t1 as TV. revert UP UL DX TV. generalize (1 / h) as v. intros v UP UL DX TV.
    destruct (Nat.eqb_spec i 0) as [->|N0].
    - assert (C : fst (zz n 0) - fst (zz n (2 * n - 1)) == - v /\ fst (zz n 1) - fst (zz n 0) == v /\ snd (zz n (2 * n - 1)) == 0 /\ snd (zz n 0) == 1 /\ snd (zz n 1) == -1).
      { unfold zz, column, lift. destruct (Nat.ltb_spec n 0); [lia|]. destruct (Nat.ltb_spec n 1); [lia|]. destruct (Nat.ltb_spec n (2 * n - 1)); [|lia]. cbn [fst snd]. rewrite !DX.
        replace (2 * n - (2 * n - 1))%nat with 1%nat by lia. change (of_nat 0) with 0. change (of_nat 1) with 1. change (sg 0) with 1. change (sg 1) with (-1).
        destruct (sg_even 1 n) as [-> |X]; [|lia]. change (sg 1) with (-1). repeat split; try ring. }
      destruct C as (C1 & C2 & C3 & C4 & C5). change (prv 0) with (2 * n - 1)%nat. assert (E : nxt n 0 = 1%nat) by (unfold nxt; destruct (Nat.eqb_spec 1 (2 * n)); lia). rewrite E.
      apply classify_top; auto; rewrite ?C3, ?C4, ?C5; try lra.
      unfold bend. rewrite C1, C2, C3, C4, C5. ring_simplify. lra.
    - assert (K : exists k, i = S k) by (exists (i - 1)%nat; lia). destruct K as (k & ->). replace (prv (S k)) with k by (unfold prv; simpl; lia).
      assert (SK : sg k == - sg (S k)) by (rewrite sg_S; ring).
      destruct (Nat.ltb_spec (S k) n) as [LT|GE].
      + assert (E : nxt n (S k) = S (S k)) by (unfold nxt; destruct (Nat.eqb_spec (S (S k)) (2 * n)); lia). rewrite E.
        assert (C : fst (zz n (S k)) - fst (zz n k) == v /\ fst (zz n (S (S k))) - fst (zz n (S k)) == v /\ snd (zz n k) == - sg (S k) /\ snd (zz n (S k)) == sg (S k) /\ snd (zz n (S (S k))) == - sg (S k)).
        { unfold zz, column, lift. destruct (Nat.ltb_spec n k); [lia|]. destruct (Nat.ltb_spec n (S k)); [lia|]. destruct (Nat.ltb_spec n (S (S k))); [lia|]. cbn [fst snd]. rewrite !DX.
          rewrite (sg_S (S k)), SK, !of_nat_S. repeat split; try ring. }
        destruct C as (C1 & C2 & C3 & C4 & C5). unfold sg in C3, C4, C5. destruct (Nat.even (S k)).
        * apply classify_top; auto; rewrite ?C3, ?C4, ?C5; try lra. unfold bend. rewrite C1, C2, C3, C4, C5. ring_simplify. lra.
        * apply classify_bottom; auto; rewrite ?C3, ?C4, ?C5; try lra. unfold bend. rewrite C1, C2, C3, C4, C5. ring_simplify. lra.
      + destruct (Nat.eqb_spec (S k) n) as [EN|NN].
        * assert (E : nxt n (S k) = S (S k)) by (unfold nxt; destruct (Nat.eqb_spec (S (S k)) (2 * n)); lia). rewrite E.
          assert (C : fst (zz n (S k)) - fst (zz n k) == v /\ fst (zz n (S (S k))) - fst (zz n (S k)) == - v /\ snd (zz n k) == - sg (S k) /\ snd (zz n (S k)) == sg (S k) /\ snd (zz n (S (S k))) == - sg (S k) + 1).
          { unfold zz, column, lift. destruct (Nat.ltb_spec n k); [lia|]. destruct (Nat.ltb_spec n (S k)); [lia|]. destruct (Nat.ltb_spec n (S (S k))); [|lia]. cbn [fst snd]. rewrite !DX.
            replace (2 * n - S (S k))%nat with k by lia. rewrite (sg_S (S k)), SK, !of_nat_S. repeat split; try ring. }
          destruct C as (C1 & C2 & C3 & C4 & C5). unfold sg in C3, C4, C5. destruct (Nat.even (S k)).
          -- apply classify_top; auto; rewrite ?C3, ?C4, ?C5; try lra. unfold bend. rewrite C1, C2, C3, C4, C5. ring_simplify. lra.
          -- apply classify_bottom; auto; rewrite ?C3, ?C4, ?C5; try lra. unfold bend. rewrite C1, C2, C3, C4, C5. ring_simplify. lra.
        * assert (C : exists a b, 0 <= a <= 1 /\ 0 <= b <= 1 /\ fst (zz n (S k)) - fst (zz n k) == - v /\ fst (zz n (nxt n (S k))) - fst (zz n (S k)) == - v /\
            snd (zz n k) == - sg (S k) + a /\ snd (zz n (S k)) == sg (S k) + 1 /\ snd (zz n (nxt n (S k))) == - sg (S k) + b).
          { exists (lift n k), (lift n (nxt n (S k))). assert (LB : forall j, 0 <= lift n j <= 1) by (intros j; unfold lift; destruct (n <? j)%nat; lra).
            split; [apply LB|]. split; [apply LB|].
            assert (CK : column n k = (2 * n - k)%nat) by (unfold column; destruct (Nat.ltb_spec n k); lia).
            assert (CS : column n (S k) = (2 * n - S k)%nat) by (unfold column; destruct (Nat.ltb_spec n (S k)); lia).
            assert (CN : column n (nxt n (S k)) = (2 * n - S (S k))%nat).
            { unfold nxt. destruct (Nat.eqb_spec (S (S k)) (2 * n)) as [E|E]; unfold column; [destruct (Nat.ltb_spec n 0); lia|destruct (Nat.ltb_spec n (S (S k))); lia]. }
            assert (SN : sg (nxt n (S k)) == - sg (S k)).
            { rewrite <- sg_S. unfold nxt. destruct (Nat.eqb_spec (S (S k)) (2 * n)) as [E|E]; [|reflexivity]. rewrite E. unfold sg. rewrite Nat.even_mul. reflexivity. }
            unfold zz. cbn [fst snd]. rewrite CK, CS, CN, !DX, SN, SK, !of_nat_sub, !of_nat_S by lia. assert (LK : lift n (S k) = 1) by (unfold lift; destruct (Nat.ltb_spec n (S k)); [auto|lia]). rewrite LK. repeat split; try ring. }
          destruct C as (a & b & A & B & C1 & C2 & C3 & C4 & C5). unfold sg in C3, C4, C5. destruct (Nat.even (S k)).
          -- apply classify_top; auto; rewrite ?C3, ?C4, ?C5; try lra. unfold bend. rewrite C1, C2, C3, C4, C5.
             assert (X : 4 * v <= - v * (-1 + b - (1 + 1)) - (1 + 1 - (-1 + a)) * - v) by nra. lra.
          -- apply classify_bottom; auto; rewrite ?C3, ?C4, ?C5; try lra. unfold bend. rewrite C1, C2, C3, C4, C5.
             assert (X : - v * (- -1 + b - (-1 + 1)) - (-1 + 1 - (- -1 + a)) * - v <= - (2 * v)) by nra. lra.
  Qed.
End Events.

(** ** What the function returns *)
Lemma zigzag_points n0 : (4 <= n0)%nat -> Nat.even n0 = true ->
  zigzag n0 = Ok (map (fun p => (Fin (fst p), snd p)) (points (n0 / 2))).
Proof.
  intros L E. apply Nat.even_spec in E as (n & ->). assert (n2 : (2 <= n)%nat) by lia. unfold zigzag.
  assert (D : (2 * n / 2 = n)%nat) by (rewrite Nat.mul_comm; apply Nat.div_mul; lia). rewrite D.
  assert (M : ((2 * n) mod 2 = 0)%nat) by (rewrite Nat.mul_comm; apply Nat.mod_mul; lia). rewrite M.
  destruct (Nat.leb_spec 2 (2 * n)); [|lia]. cbn [Nat.eqb andb assert]. f_equal. unfold points. rewrite map_map. apply map_ext_in. intros i I. apply in_seq in I.
  unfold zigzag_point, zz, column, lift, over. rewrite even_mod. assert (N : (n / 2 <> 0)%nat) by (apply Nat.neq_sym, Nat.lt_neq, Nat.div_str_pos; lia).
  destruct (Nat.eqb_spec (n / 2) 0); [lia|]. unfold sg. destruct (Nat.ltb_spec n i); destruct (Nat.even i); cbn [fst snd]; reflexivity.
Qed.
Lemma zigzag_refuses n0 : (n0 < 2)%nat \/ Nat.even n0 = false -> zigzag n0 = Panic.
Proof.
  intros H. unfold zigzag. rewrite even_mod. destruct (Nat.leb_spec 2 n0); [|reflexivity]. destruct H as [H| ->]; [lia|]. reflexivity.
Qed.
Lemma zigzag_two : zigzag 2 = Ok [(NotANumber, 1); (Infinite, -1)].
Proof. reflexivity. Qed.
Lemma even_half n0 : (4 <= n0)%nat -> Nat.even n0 = true -> (2 <= n0 / 2)%nat /\ (2 * (n0 / 2) = n0)%nat.
Proof. intros L E. apply Nat.even_spec in E as (n & ->). rewrite Nat.mul_comm, Nat.div_mul by lia. lia. Qed.
Lemma zigzag_ok n0 : (4 <= n0)%nat -> Nat.even n0 = true ->
  exists ps, zigzag n0 = Ok (map (fun p => (Fin (fst p), snd p)) ps) /\ length ps = n0 /\ simple_polygon ps /\
    area2 ps == 2 * (of_nat (n0 / 2) - 1) / of_nat (n0 / 2 / 2) /\ 0 < area2 ps.
Proof.
  intros L E. destruct (even_half L E) as [n2 D]. exists (points (n0 / 2)). split; [apply zigzag_points; auto|]. split; [rewrite points_length; auto|].
  split; [apply zigzag_simple; auto|]. pose proof (zigzag_area n2) as A. split; [exact A|]. rewrite A. pose proof (h_pos n2) as HP. apply Qlt_shift_div_l; [exact HP|].
  assert (X : of_nat 2 <= of_nat (n0 / 2)) by (apply of_nat_le; auto). change (of_nat 2) with 2 in X. lra.
Qed.
Lemma zigzag_events n0 tol : (4 <= n0)%nat -> Nat.even n0 = true -> 0 <= tol -> tol < 1 / of_nat (n0 / 2 / 2) ->
  exists ps, zigzag n0 = Ok (map (fun p => (Fin (fst p), snd p)) ps) /\
    forall i, (i < n0)%nat -> classify tol (nth ((i + (n0 - 1)) mod n0) ps (0, 0)) (nth i ps (0, 0)) (nth (S i mod n0) ps (0, 0)) = kind (n0 / 2) i.
Proof.
  intros L E T0 T1. destruct (even_half L E) as [n2 D]. exists (points (n0 / 2)). split; [apply zigzag_points; auto|]. intros i LI.
  assert (P : ((i + (n0 - 1)) mod n0 = prv (n0 / 2) i)%nat).
  { unfold prv. rewrite D. destruct (Nat.eqb_spec i 0) as [->|N]; [apply Nat.mod_small; lia|]. replace (i + (n0 - 1))%nat with (i - 1 + 1 * n0)%nat by lia. rewrite Nat.mod_add by lia. apply Nat.mod_small. lia. }
  assert (N : (S i mod n0 = nxt (n0 / 2) i)%nat) by (rewrite <- nxt_mod by lia; rewrite D; auto). rewrite P, N.
  rewrite !at_points; [apply zigzag_kind; auto; lia| | |]; try lia.
  - unfold nxt. destruct (Nat.eqb_spec (S i) (2 * (n0 / 2))); lia.
  - unfold prv. destruct (Nat.eqb_spec i 0); lia.
Qed.
