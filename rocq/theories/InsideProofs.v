(** The point-in-polygon test. *)
From Coq Require Import QArith Qabs List Bool ZArith Arith Lia Lqa Permutation Ring_theory InitialRing Setoid.
From Verif Require Import Base Mesh Tess TriSpec TriFacts Alg AlgSpec AlgProofs GeoSpec Geo GeoMath GeoMathSpec QuadProofs GeoMathProofs Polygon InsideSpec.
Import ListNotations.
Local Open Scope Q_scope.

(** The crossing number of an edge, with exact sign tests: antisymmetric. *)
Definition cr (p a b : pt) : Z :=
  if Qle_bool (snd a) (snd p) then
    if Qlt_bool (snd p) (snd b) && Qlt_bool 0 (orient a b p) then 1%Z else 0%Z
  else if Qle_bool (snd b) (snd p) && Qlt_bool (orient a b p) 0 then (-1)%Z else 0%Z.
Definition W (p : pt) (t : pt * pt * pt) : Z := match t with (a, b, c) => (cr p a b + cr p b c + cr p c a)%Z end.

Lemma le_cases x y : (Qle_bool x y = true /\ x <= y) \/ (Qle_bool x y = false /\ y < x).
Proof.
  destruct (Qle_bool x y) eqn:E; [left; split; auto; apply Qle_bool_iff; auto|right; split; auto].
  apply Qnot_le_lt. intros H. apply Qle_bool_iff in H. congruence.
Qed.
Lemma lt_cases x y : (Qlt_bool x y = true /\ x < y) \/ (Qlt_bool x y = false /\ y <= x).
Proof. unfold Qlt_bool. destruct (le_cases y x) as [[-> H]|[-> H]]; cbn; auto. Qed.
Ltac cmp :=
  repeat match goal with
  | |- context [Qle_bool ?x ?y] => let E := fresh "E" in let H := fresh "H" in destruct (le_cases x y) as [[E H]|[E H]]; rewrite E in *; clear E
  | |- context [Qlt_bool ?x ?y] => let E := fresh "E" in let H := fresh "H" in destruct (lt_cases x y) as [[E H]|[E H]]; rewrite E in *; clear E
  end; cbn [andb].

Ltac cmpl :=
  repeat match goal with
  | |- context [Qle_bool ?x ?y] => let E := fresh "E" in let H := fresh "H" in destruct (le_cases x y) as [[E H]|[E H]]; rewrite E in *; clear E; try (exfalso; lra)
  | |- context [Qlt_bool ?x ?y] => let E := fresh "E" in let H := fresh "H" in destruct (lt_cases x y) as [[E H]|[E H]]; rewrite E in *; clear E; try (exfalso; lra)
  end; cbn [andb].

Lemma orient_rev a b p : orient b a p == - orient a b p.
Proof. unfold orient. ring. Qed.
Lemma cr_anti p a b : cr p b a = (- cr p a b)%Z.
Proof.
  unfold cr. pose proof (orient_rev a b p) as R.
  cmp; cbn; try reflexivity; exfalso; lra.
Qed.

Lemma weights p a b c : orient b c p + orient c a p + orient a b p == orient a b c /\
  (snd a - snd p) * orient b c p + (snd b - snd p) * orient c a p + (snd c - snd p) * orient a b p == 0.
Proof. unfold orient. split; ring. Qed.
Lemma level p a b : snd a == snd p -> snd b == snd p -> orient a b p == 0.
Proof. intros A B. unfold orient. rewrite A, B. ring. Qed.

Lemma ccw_count p a b c : 0 < orient a b c ->
  (W p (a, b, c) = 0 \/ W p (a, b, c) = 1)%Z /\
  (W p (a, b, c) = 1%Z -> 0 <= orient b c p /\ 0 <= orient c a p /\ 0 <= orient a b p) /\
  (0 < orient b c p -> 0 < orient c a p -> 0 < orient a b p -> W p (a, b, c) = 1%Z).
Proof.
  intros O. destruct (weights p a b c) as [S M].
  pose proof (@level p a b) as L1. pose proof (@level p b c) as L2.
  unfold W, cr.
  set (u := orient b c p) in *. set (v := orient c a p) in *. set (w := orient a b p) in *. clearbody u v w.
  set (al := snd a) in *. set (be := snd b) in *. set (ga := snd c) in *. set (y := snd p) in *. clearbody al be ga y.
  cmp; cbn; (split; [|split]); auto.
  all: try (intros; discriminate).
  all: intros; try solve [exfalso; nra | repeat split; nra].
Qed.

Lemma flat_weights p a b c : orient a b c == 0 ->
  (snd c - snd b) * orient a b p == (snd b - snd a) * orient b c p /\
  (snd a - snd c) * orient b c p == (snd c - snd b) * orient c a p /\
  (snd b - snd a) * orient c a p == (snd a - snd c) * orient a b p.
Proof.
  intros O.
  assert (E1 : (snd c - snd b) * orient a b p - (snd b - snd a) * orient b c p == orient a b c * (snd p - snd b)) by (unfold orient; ring).
  assert (E2 : (snd a - snd c) * orient b c p - (snd c - snd b) * orient c a p == orient a b c * (snd p - snd c)) by (unfold orient; ring).
  assert (E3 : (snd b - snd a) * orient c a p - (snd a - snd c) * orient a b p == orient a b c * (snd p - snd a)) by (unfold orient; ring).
  rewrite O in E1, E2, E3. repeat split; lra.
Qed.
Lemma flat_count p a b c : orient a b c == 0 -> W p (a, b, c) = 0%Z.
Proof.
  intros O. destruct (weights p a b c) as [S M]. destruct (flat_weights p a b c O) as (F1 & F2 & F3). rewrite O in S.
  unfold W, cr.
  set (u := orient b c p) in *. set (v := orient c a p) in *. set (w := orient a b p) in *. clearbody u v w.
  set (al := snd a) in *. set (be := snd b) in *. set (ga := snd c) in *. set (y := snd p) in *. clearbody al be ga y.
  clear O M. cmp; cbn; auto; exfalso; try lra.
  all: first [clear S F1 F2; nra|clear S F1 F3; nra|clear S F2 F3; nra].
Qed.

Lemma W_turn p a b c : W p (b, c, a) = W p (a, b, c).
Proof. cbn. lia. Qed.
Lemma W_flip p a b c : W p (c, b, a) = (- W p (a, b, c))%Z.
Proof. cbn. rewrite (cr_anti p a b), (cr_anti p b c), (cr_anti p c a). lia. Qed.
Lemma orient_turn a b c : orient b c a == orient a b c.
Proof. unfold orient. ring. Qed.
Lemma orient_flip a b c : orient c b a == - orient a b c.
Proof. unfold orient. ring. Qed.

(** A point between two triangles belongs to one of them. *)
Lemma between p a b c d : 0 < orient a b c -> 0 < orient b a d -> on_segment 0 p a b ->
  ~ (fst p == fst a /\ snd p == snd a) -> ~ (fst p == fst b /\ snd p == snd b) ->
  (W p (a, b, c) + W p (b, a, d) = 1)%Z.
Proof.
  intros O1 O2 (t & T0 & T1 & X & Y) NA NB.
  assert (P0 : 0 < t). { destruct (Qlt_le_dec 0 t) as [L|L]; auto. exfalso. apply NA. assert (t == 0) by lra. rewrite X, Y, H. split; ring. }
  assert (P1 : t < 1). { destruct (Qlt_le_dec t 1) as [L|L]; auto. exfalso. apply NB. assert (t == 1) by lra. rewrite X, Y, H. split; ring. }
  assert (E1 : orient b c p == (1 - t) * orient a b c) by (unfold orient; rewrite X, Y; ring).
  assert (E2 : orient c a p == t * orient a b c) by (unfold orient; rewrite X, Y; ring).
  assert (E3 : orient a b p == 0) by (unfold orient; rewrite X, Y; ring).
  assert (E4 : orient a d p == t * orient b a d) by (unfold orient; rewrite X, Y; ring).
  assert (E5 : orient d b p == (1 - t) * orient b a d) by (unfold orient; rewrite X, Y; ring).
  assert (E6 : orient b a p == 0) by (unfold orient; rewrite X, Y; ring).
  assert (F1 : 0 < orient b c p) by (rewrite E1; nra). assert (F2 : 0 < orient c a p) by (rewrite E2; nra).
  assert (F4 : 0 < orient a d p) by (rewrite E4; nra). assert (F5 : 0 < orient d b p) by (rewrite E5; nra).
  destruct (weights p a b c) as [S1 M1]. destruct (weights p b a d) as [S2 M2].
  assert (Y1 : snd p - snd a == t * (snd b - snd a)) by (rewrite Y; ring).
  assert (Y2 : snd b - snd p == (1 - t) * (snd b - snd a)) by (rewrite Y; ring).
  assert (D : (snd a < snd p /\ snd p < snd b) \/ (snd b < snd p /\ snd p < snd a) \/ (snd a == snd p /\ snd b == snd p)).
  { destruct (Qlt_le_dec (snd a) (snd b)) as [L|L]; [left; split; nra|]. destruct (Qlt_le_dec (snd b) (snd a)) as [L'|L']; [right; left; split; nra|].
    right. right. assert (E : snd b - snd a == 0) by lra. rewrite E in Y1, Y2. split; lra. }
  assert (OP : snd a == snd p -> snd b == snd p -> (snd c - snd p) * (snd d - snd p) < 0).
  { intros A B. assert (Q1 : orient a b c == (fst b - fst a) * (snd c - snd p)) by (unfold orient; rewrite A, B; ring).
    assert (Q2 : orient b a d == - (fst b - fst a) * (snd d - snd p)) by (unfold orient; rewrite A, B; ring).
    rewrite Q1 in O1. rewrite Q2 in O2. set (g := fst b - fst a) in *. set (k := snd c - snd p) in *. set (l := snd d - snd p) in *. clearbody g k l.
    destruct (Qlt_le_dec 0 g); nra. }
  clear E1 E2 E4 E5 Y1 Y2 X Y NA NB T0 T1.
  unfold W, cr.
  set (u := orient b c p) in *. set (v := orient c a p) in *. set (w := orient a b p) in *. clearbody u v w.
  set (u' := orient a d p) in *. set (v' := orient d b p) in *. set (w' := orient b a p) in *. clearbody u' v' w'.
  set (al := snd a) in *. set (be := snd b) in *. set (ga := snd c) in *. set (de := snd d) in *. set (y := snd p) in *. clearbody al be ga de y.
  clear S1 S2 M1 M2 O1 O2.
  destruct D as [[D1 D2]|[[D1 D2]|[D1 D2]]]; [clear OP|clear OP|specialize (OP D1 D2)]; cmpl; cbn; try reflexivity; exfalso; try lra.
  all: nra.
Qed.

Lemma seg_sym p a b : on_segment 0 p a b -> on_segment 0 p b a.
Proof.
  intros (t & A & B & X & Y). exists (1 - t). split; [lra|]. split; [lra|]. rewrite X, Y. split; ring.
Qed.
Lemma seg_start p a b : fst p == fst a /\ snd p == snd a -> on_segment 0 p a b.
Proof. intros [X Y]. exists 0. split; [lra|]. split; [lra|]. rewrite X, Y. split; ring. Qed.
Lemma weak_cases p a b c : weakly_inside p a b c -> strictly_inside p a b c \/ on_segment 0 p a b \/ on_segment 0 p b c \/ on_segment 0 p c a.
Proof.
  intros (u & v & w & U & V & X & S & E1 & E2).
  destruct (Qlt_le_dec 0 u) as [U'|U']; [destruct (Qlt_le_dec 0 v) as [V'|V']; [destruct (Qlt_le_dec 0 w) as [W'|W']|]|].
  - left. exists u, v, w. auto 10.
  - right. left. exists v. assert (Z : w == 0) by lra. assert (Z' : u == 1 - v) by lra. rewrite E1, E2, Z, Z'. split; [lra|]. split; [lra|]. split; ring.
  - right. right. right. exists u. assert (Z : v == 0) by lra. assert (Z' : w == 1 - u) by lra. rewrite E1, E2, Z, Z'. split; [lra|]. split; [lra|]. split; ring.
  - right. right. left. exists w. assert (Z : u == 0) by lra. assert (Z' : v == 1 - w) by lra. rewrite E1, E2, Z, Z'. split; [lra|]. split; [lra|]. split; ring.
Qed.
Lemma inside_turn p a b c ok : combination ok p a b c -> combination ok p b c a.
Proof. intros (u & v & w & U & V & X & S & E1 & E2). exists v, w, u. rewrite E1, E2. repeat split; auto; try ring. lra. Qed.

Definition total (p : pt) (T : list (pt * pt * pt)) : Z := fold_right (fun t z => (W p t + z)%Z) 0%Z T.
Lemma total_app p A B : total p (A ++ B) = (total p A + total p B)%Z.
Proof. induction A as [|t A IH]; auto. cbn [app total fold_right]. fold (total p A). fold (total p (A ++ B)). lia. Qed.
Lemma total_perm p A B : Permutation A B -> total p A = total p B.
Proof. induction 1; cbn [total fold_right] in *; unfold total in *; lia. Qed.
Definition ccw (t : pt * pt * pt) : Prop := 0 < tri_orient t.
Lemma W_ge p t : ccw t -> (0 <= W p t)%Z.
Proof. destruct t as [[a b] c]. intros H. destruct (ccw_count p a b c H) as [[E|E] _]; rewrite E; lia. Qed.
Lemma total_in p T t : (forall t, In t T -> ccw t) -> In t T -> (W p t <= total p T)%Z /\ (0 <= total p T)%Z.
Proof.
  intros H. assert (G : (0 <= total p T)%Z).
  { clear t. induction T as [|t T IH]; cbn [total fold_right]; [lia|]. fold (total p T). pose proof (W_ge p t (H t (or_introl eq_refl))).
    assert (0 <= total p T)%Z by (apply IH; intros; apply H; right; auto). lia. }
  intros I. split; auto. apply in_split in I as (A & B & ->). rewrite total_app in *. cbn [total fold_right]. fold (total p B).
  assert (GA : forall L, (forall t, In t L -> ccw t) -> (0 <= total p L)%Z).
  { intros L HL. induction L as [|x L IH]; cbn [total fold_right]; [lia|]. fold (total p L). pose proof (W_ge p x (HL x (or_introl eq_refl))).
    assert (0 <= total p L)%Z by (apply IH; intros; apply HL; right; auto). lia. }
  assert (0 <= total p A)%Z by (apply GA; intros; apply H; apply in_or_app; auto).
  assert (0 <= total p B)%Z by (apply GA; intros; apply H; apply in_or_app; cbn; auto). lia.
Qed.
Lemma strict_one p a b c : 0 < orient a b c -> strictly_inside p a b c -> W p (a, b, c) = 1%Z.
Proof.
  intros O S. destruct (ccw_count p a b c O) as (_ & _ & H). apply strict_orient in S; [|lra].
  destruct S as [(_ & A & B & C)|(X & _)]; [|lra].
  pose proof (orient_turn p b c). pose proof (orient_turn p c a). pose proof (orient_turn p a b). apply H; lra.
Qed.
Lemma one_weak p a b c : 0 < orient a b c -> W p (a, b, c) = 1%Z -> weakly_inside p a b c.
Proof.
  intros O S. destruct (ccw_count p a b c O) as (_ & H & _). apply H in S as (A & B & C). apply weak_orient; [lra|].
  pose proof (orient_turn p b c). pose proof (orient_turn p c a). pose proof (orient_turn p a b). left. repeat split; lra.
Qed.

Definition turned (t : pt * pt * pt) (a k b : pt) : Prop := t = (a, k, b) \/ t = (k, b, a) \/ t = (b, a, k).
Lemma root a l b T : tri a l b T -> l <> [] -> exists k t, In t T /\ turned t a k b.
Proof.
  induction 1 as [a b|a l1 k l2 b T1 T2 H1 IH1 H2 IH2|a l b T T' P H IH|a l b x y z T H IH]; intros N.
  - congruence.
  - exists k, (a, k, b). split; [left; auto|left; auto].
  - destruct (IH N) as (k & t & I & R). exists k, t. split; auto. eapply Permutation_in; eauto.
  - destruct (IH N) as (k & t & [<-|I] & R).
    + exists k, (y, z, x). split; [left; auto|]. destruct R as [R|[R|R]]; injection R as -> -> ->; unfold turned; auto.
    + exists k, t. split; [right; auto|auto].
Qed.
Lemma turned_W p t a k b : turned t a k b -> W p t = W p (b, a, k) /\ (ccw t -> 0 < orient b a k).
Proof.
  unfold ccw, tri_orient. intros [-> | [-> | ->]]; (split; [cbn; lia|]); pose proof (orient_turn a k b); pose proof (orient_turn b a k); lra.
Qed.

Lemma inner p a l b T : tri a l b T -> (forall t, In t T -> ccw t) ->
  (forall x y, In (x, y) (path (a :: l ++ [b])) -> ~ on_segment 0 p x y) -> ~ on_segment 0 p b a ->
  (exists t, In t T /\ in_triangle p t) -> (1 <= total p T)%Z.
Proof.
  induction 1 as [a b|a l1 k l2 b T1 T2 H1 IH1 H2 IH2|a l b T T' P H IH|a l b x y z T H IH]; intros CC OFF NB (t & It & IN).
  - destruct It.
  - assert (PE : path (a :: (l1 ++ k :: l2) ++ [b]) = path (a :: l1 ++ [k]) ++ path (k :: l2 ++ [b])).
    { rewrite <- app_assoc. cbn [app]. change (a :: l1 ++ k :: l2 ++ [b]) with ((a :: l1) ++ k :: (l2 ++ [b])). rewrite path_app. reflexivity. }
    rewrite PE in OFF.
    assert (OFF1 : forall x y, In (x, y) (path (a :: l1 ++ [k])) -> ~ on_segment 0 p x y) by (intros; apply OFF, in_or_app; auto).
    assert (OFF2 : forall x y, In (x, y) (path (k :: l2 ++ [b])) -> ~ on_segment 0 p x y) by (intros; apply OFF, in_or_app; auto).
    assert (NK : ~ (fst p == fst k /\ snd p == snd k)).
    { intros E. destruct l2 as [|x l2]; cbn [app path] in OFF2; eapply OFF2; try (left; reflexivity); apply seg_start; auto. }
    assert (NA : ~ (fst p == fst a /\ snd p == snd a)) by (intros E; apply NB, seg_sym, seg_start; auto).
    assert (NBB : ~ (fst p == fst b /\ snd p == snd b)) by (intros E; apply NB, seg_start; auto).
    assert (CR : 0 < orient a k b) by (apply (CC (a, k, b)); left; auto).
    assert (CC1 : forall t, In t T1 -> ccw t) by (intros; apply CC; right; apply in_or_app; auto).
    assert (CC2 : forall t, In t T2 -> ccw t) by (intros; apply CC; right; apply in_or_app; auto).
    assert (G1 : (0 <= total p T1)%Z) by (destruct T1 as [|t1 T1']; [cbn; lia|apply (total_in p _ t1 CC1); left; auto]).
    assert (G2 : (0 <= total p T2)%Z) by (destruct T2 as [|t2 T2']; [cbn; lia|apply (total_in p _ t2 CC2); left; auto]).
    assert (G0 : (0 <= W p (a, k, b))%Z) by (apply W_ge; exact CR).
    assert (TT : total p ((a, k, b) :: T1 ++ T2) = (W p (a, k, b) + total p T1 + total p T2)%Z).
    { cbn [total fold_right]. fold (total p (T1 ++ T2)). rewrite total_app. lia. }
    rewrite TT.
    destruct (Z_le_gt_dec 1 (W p (a, k, b) + total p T1 + total p T2)) as [|GT]; auto. exfalso.
    assert (DK : ~ on_segment 0 p a k).
    { intros DK. destruct l1 as [|y l1]; [exfalso; apply (OFF1 a k); [left; reflexivity|auto]|].
      destruct (root _ _ _ _ H1) as (k' & t' & I' & R); [discriminate|]. destruct (turned_W p _ _ _ _ R) as [E O].
      specialize (O (CC1 _ I')). pose proof (between p a k b k' CR O DK NA NK) as B. destruct (total_in p _ _ CC1 I') as [LE _]. lia. }
    assert (DB : ~ on_segment 0 p k b).
    { intros DB. destruct l2 as [|y l2]; [exfalso; apply (OFF2 k b); [left; reflexivity|auto]|].
      destruct (root _ _ _ _ H2) as (k' & t' & I' & R); [discriminate|]. destruct (turned_W p _ _ _ _ R) as [E O].
      specialize (O (CC2 _ I')). assert (CR' : 0 < orient k b a) by (pose proof (orient_turn a k b); lra).
      pose proof (between p k b a k' CR' O DB NK NBB) as B. destruct (total_in p _ _ CC2 I') as [LE _]. rewrite (W_turn p a k b) in B. lia. }
    destruct It as [<-|It].
    + cbn in IN. destruct (weak_cases _ _ _ _ IN) as [ST|[X|[X|X]]]; try tauto. rewrite (strict_one p a k b CR ST) in GT. lia.
    + apply in_app_or in It as [It|It].
      * assert (1 <= total p T1)%Z by (apply IH1; eauto; intros X; apply DK, seg_sym; auto). lia.
      * assert (1 <= total p T2)%Z by (apply IH2; eauto; intros X; apply DB, seg_sym; auto). lia.
  - rewrite <- (total_perm p _ _ P). apply IH; auto.
    + intros t' I. apply CC. eapply Permutation_in; eauto.
    + exists t. split; auto. eapply Permutation_in; [apply Permutation_sym|]; eauto.
  - cbn [total fold_right]. rewrite W_turn. apply IH; auto.
    + intros t' [<-|I]; [|apply CC; right; auto]. specialize (CC (y, z, x) (or_introl eq_refl)). unfold ccw, tri_orient in *. pose proof (orient_turn x y z). lra.
    + destruct It as [<-|It]; [|exists t; split; [right; auto|auto]]. exists (x, y, z). split; [left; auto|]. cbn in *. do 2 apply inside_turn in IN. exact IN.
Qed.

Section Tests.
  Variables pos neg : Q -> bool.
  Hypothesis SP : sign_test pos.
  Hypothesis SN : neg_test neg.

  Lemma on_line p a b : orient a b p == 0 -> (snd a <= snd p /\ snd p < snd b) \/ (snd b <= snd p /\ snd p < snd a) -> on_segment 0 p a b.
  Proof.
    intros O D. assert (N : ~ snd b - snd a == 0) by lra.
    exists ((snd p - snd a) / (snd b - snd a)).
    assert (E : (snd p - snd a) / (snd b - snd a) * (snd b - snd a) == snd p - snd a) by (field; auto).
    set (t := (snd p - snd a) / (snd b - snd a)) in *. clearbody t. unfold orient in O.
    assert (X : (snd b - snd a) * (fst p - fst a - (fst b - fst a) * t) == 0) by (rewrite <- E in O; lra).
    assert (X' : fst p - fst a - (fst b - fst a) * t == 0). { apply Qmult_integral in X as [X|X]; [contradiction|auto]. }
    split; [|split; [|split]]; try nra.
  Qed.
  Lemma crossing_cr p a b : ~ on_segment 0 p a b -> crossing pos neg p a b = cr p a b.
  Proof.
    intros N. unfold crossing, cr. change (perp_dot (vsub b a) (vsub p a)) with (orient a b p).
    destruct (le_cases (snd a) (snd p)) as [[E1 A]|[E1 A]]; rewrite E1.
    - destruct (lt_cases (snd p) (snd b)) as [[E2 B]|[E2 B]]; rewrite E2; auto. cbn [andb].
      destruct (lt_cases 0 (orient a b p)) as [[E3 C]|[E3 C]]; rewrite E3.
      + rewrite (proj1 SP _ C). auto.
      + assert (C' : orient a b p < 0). { destruct (Qlt_le_dec (orient a b p) 0); auto. exfalso. apply N, on_line; auto. lra. }
        rewrite (proj2 SP _ C'). auto.
    - destruct (le_cases (snd b) (snd p)) as [[E2 B]|[E2 B]]; rewrite E2; auto. cbn [andb].
      destruct (lt_cases (orient a b p) 0) as [[E3 C]|[E3 C]]; rewrite E3.
      + rewrite (neg_true neg SN _ C). auto.
      + assert (C' : 0 < orient a b p). { destruct (Qlt_le_dec 0 (orient a b p)); auto. exfalso. apply N, on_line; auto. lra. }
        rewrite (neg_false neg SN _ C'). auto.
  Qed.

  Let o0 : pt := (0, 0)%Q.
  Lemma contains_sum ps p : contains pos neg ps p = Ok (negb (esum 0%Z Z.add (crossing pos neg p) (poly_edges ps) =? 0)%Z).
  Proof.
    unfold contains. rewrite (poly_edges_nth ps o0).
    assert (G : forall l z, (forall i, In i l -> (i < length ps)%nat) ->
      foldM (fun count i => let* a := at_ ps i in let* b := at_ ps ((i + 1) mod length ps)%nat in Ok (count + crossing pos neg p a b)%Z) l z =
      Ok (z + esum 0%Z Z.add (crossing pos neg p) (map (fun i => (nth i ps o0, nth ((i + 1) mod length ps)%nat ps o0)) l))%Z).
    { induction l as [|i l IH]; intros z B; cbn [foldM map esum]; [f_equal; lia|].
      pose proof (B i (or_introl eq_refl)). rewrite (@at_nth pt ps _ o0) by auto. cbn [bind].
      rewrite (@at_nth pt ps _ o0) by (apply Nat.mod_upper_bound; lia). cbn [bind]. rewrite IH by (intros; apply B; right; auto). f_equal. lia. }
    rewrite G by (intros i I; apply in_seq in I; lia). cbn [bind]. reflexivity.
  Qed.
  Lemma esum_same (w w' : pt -> pt -> Z) es : (forall a b, In (a, b) es -> w a b = w' a b) -> esum 0%Z Z.add w es = esum 0%Z Z.add w' es.
  Proof. induction es as [|[a b] es IH]; intros H; auto. cbn. rewrite (H a b) by (left; auto). rewrite IH; auto. intros; apply H; right; auto. Qed.
  Lemma total_edges p T : esum 0%Z Z.add (cr p) (flat_map (@tri_edges pt) T) = total p T.
  Proof. induction T as [|[[a b] c] T IH]; auto. cbn [flat_map tri_edges app esum total fold_right]. rewrite IH. cbn [W]. unfold total. lia. Qed.
  Lemma contains_total ps T p : triangulates ps T -> off_boundary p ps -> contains pos neg ps p = Ok (negb (total p T =? 0)%Z).
  Proof.
    intros (a & l & b & -> & H) OFF. rewrite contains_sum. f_equal. f_equal. f_equal. rewrite <- total_edges.
    rewrite (esum_same _ (cr p)) by (intros x y I; apply crossing_cr, OFF; auto). symmetry.
    apply (@tri_sum pt Z 0%Z 1%Z Z.add Z.mul Z.sub Z.opp eq _ (Eq_ext _ _ _) Zth); auto.
    intros x y. apply cr_anti.
  Qed.

  Lemma ccw_total a l b T p : tri a l b T -> (forall t, In t T -> ccw t) -> off_boundary p (a :: l ++ [b]) ->
    ((1 <= total p T)%Z <-> exists t, In t T /\ in_triangle p t) /\ (0 <= total p T)%Z.
  Proof.
    intros H CC OFF. unfold off_boundary in OFF. rewrite poly_edges_path in OFF. split; [split|].
    - clear H OFF. induction T as [|t T IH]; cbn [total fold_right]; [lia|]. fold (total p T). intros G.
      destruct (Z_le_gt_dec 1 (total p T)) as [L|L].
      + destruct IH as (t' & I & J); auto; [intros; apply CC; right; auto|]. exists t'. split; [right; auto|auto].
      + exists t. split; [left; auto|]. pose proof (CC t (or_introl eq_refl)) as C. destruct t as [[x y] z].
        apply one_weak; auto. destruct (ccw_count p x y z C) as ([E|E] & _); auto. lia.
    - apply (inner p _ _ _ _ H CC); [intros x y I; apply OFF, in_or_app; auto|apply OFF, in_or_app; right; left; auto].
    - destruct T as [|t T]; [cbn; lia|]. apply (total_in p _ t CC). left; auto.
  Qed.
  Lemma flip_total p T : total p (map (@flip_tri pt) T) = (- total p T)%Z.
  Proof. induction T as [|[[a b] c] T IH]; auto. cbn [map total fold_right flip_tri]. rewrite W_flip. unfold total in *. lia. Qed.
  Lemma flip_in p t : in_triangle p (flip_tri t) <-> in_triangle p t.
  Proof.
    destruct t as [[a b] c]. cbn. unfold weakly_inside, combination. split; intros (u & v & w & U & V & X & S & E1 & E2); exists w, v, u;
      rewrite E1, E2; repeat split; auto; try ring; lra.
  Qed.

  Theorem contains_ok ps T p : triangulates ps T -> same_side T -> off_boundary p ps ->
    exists r, contains pos neg ps p = Ok r /\ (r = true <-> exists t, In t T /\ in_triangle p t).
  Proof.
    intros TR SS OFF. exists (negb (total p T =? 0)%Z). split; [apply contains_total; auto|].
    assert (X : (total p T <> 0)%Z <-> exists t, In t T /\ in_triangle p t).
    { destruct TR as (a & l & b & -> & H). destruct SS as [CC|CW].
      - destruct (ccw_total a l b T p H CC OFF) as [A B]. rewrite <- A. lia.
      - assert (CC : forall t, In t (map (@flip_tri pt) T) -> ccw t).
        { intros t I. apply in_map_iff in I as ([[x y] z] & <- & I). specialize (CW _ I). unfold ccw, tri_orient in *. cbn [flip_tri] in *. pose proof (orient_flip x y z). lra. }
        apply tri_mirror in H. assert (OFF' : off_boundary p (b :: rev l ++ [a])).
        { replace (b :: rev l ++ [a]) with (rev (a :: l ++ [b])) by (cbn; rewrite rev_app_distr; reflexivity).
          intros x y I SG. apply (Permutation_in _ (poly_edges_rev (a :: l ++ [b]))) in I. apply in_map_iff in I as ([x' y'] & [= <- <-] & I).
          apply (OFF _ _ I), seg_sym, SG. }
        destruct (ccw_total b (rev l) a _ p H CC OFF') as [A B]. rewrite flip_total in *.
        assert (E : (exists t, In t (map (@flip_tri pt) T) /\ in_triangle p t) <-> exists t, In t T /\ in_triangle p t).
        { split.
          - intros (t & I & J). apply in_map_iff in I as (t' & <- & I). exists t'. split; auto. apply flip_in. auto.
          - intros (t & I & J). exists (flip_tri t). split; [apply in_map; auto|]. apply flip_in. auto. }
        rewrite <- E, <- A. lia. }
    rewrite <- X. rewrite negb_true_iff, Z.eqb_neq. tauto.
  Qed.

  Lemma winds_W p t z : winds p t z -> W p t = z.
  Proof.
    destruct t as [[a b] c]. assert (F : strictly_inside p a b c -> strictly_inside p c b a).
    { intros (u & v & w & U & V & X & S & E1 & E2). exists w, v, u. rewrite E1, E2. repeat split; auto; try ring. lra. }
    intros [O I|O I|O I|O]; cbn [tri_orient in_triangle in_triangle_strictly] in *.
    - apply strict_one; auto.
    - pose proof (W_flip p a b c) as E. rewrite strict_one in E; auto; [lia|]. pose proof (orient_flip a b c). lra.
    - destruct (Qlt_le_dec 0 (orient a b c)) as [L|L].
      + destruct (ccw_count p a b c L) as ([E|E] & _); auto. exfalso. apply I, one_weak; auto.
      + pose proof (orient_flip a b c) as X. assert (L' : 0 < orient c b a) by lra.
        destruct (ccw_count p c b a L') as ([E|E] & _); pose proof (W_flip p a b c); [lia|]. exfalso. apply I.
        apply (flip_in p (a, b, c)). apply one_weak; auto.
    - apply flat_count; auto.
  Qed.
  Theorem contains_winding ps T zs p : triangulates ps T -> off_boundary p ps -> Forall2 (winds p) T zs ->
    contains pos neg ps p = Ok (negb (fold_right Z.add 0 zs =? 0)%Z).
  Proof.
    intros TR OFF WI. rewrite (contains_total _ _ _ TR OFF). f_equal. f_equal. f_equal. clear TR.
    induction WI as [|t z T zs H WI IH]; auto. cbn [total fold_right]. rewrite (winds_W _ _ _ H). unfold total in IH. lia.
  Qed.

  Lemma crosses_line eps a b s t : 0 <= eps -> crosses eps a b s t <-> exists x, intersect_line a b s t eps eps = Some x.
  Proof.
    intros E. assert (P : perp_dot (vsub b a) (vsub t s) == (fst b - fst a) * (snd t - snd s) - (snd b - snd a) * (fst t - fst s)) by (unfold perp_dot, vsub; cbn; ring).
    unfold crosses. rewrite <- P. split.
    - intros (L & x & X). destruct (intersect_line a b s t eps eps) as [y|] eqn:I; [eauto|]. exfalso.
      apply intersect_none in I as [I|I]; auto; [lra|]. apply (I x X).
    - intros (x & I). split.
      + unfold intersect_line in I. cbv zeta in I. destruct (Qle_bool (Qabs (perp_dot (vsub b a) (vsub t s))) eps) eqn:E0; [discriminate|].
        apply Qnot_le_lt. intros C. apply Qle_bool_iff in C. congruence.
      + exists x. apply intersect_some in I; auto.
  Qed.
  Lemma crossing_ext p p' a b : fst p == fst p' -> snd p == snd p' -> ~ on_segment 0 p' a b -> crossing pos neg p a b = crossing pos neg p' a b.
  Proof.
    intros X Y N. rewrite !crossing_cr; auto.
    - unfold cr. assert (O : orient a b p == orient a b p') by (unfold orient; rewrite X, Y; reflexivity).
      unfold Qlt_bool. rewrite !Y, !O. reflexivity.
    - intros (t & A & B & C & D). apply N. exists t. rewrite <- X, <- Y. auto.
  Qed.
  Lemma contains_ext ps p p' : fst p == fst p' -> snd p == snd p' -> off_boundary p' ps -> contains pos neg ps p = contains pos neg ps p'.
  Proof.
    intros X Y OFF. rewrite !contains_sum. f_equal. f_equal. f_equal. apply esum_same. intros a b I. apply crossing_ext; auto.
  Qed.
  Definition diag_step eps ps i j (a b : pt) (ok : bool) (start : nat) : res bool :=
      if negb ok then Ok false else
      let end_ := Nat.modulo (Nat.add start 1) (length ps) in
      if Nat.eqb start i || Nat.eqb start j || Nat.eqb end_ i || Nat.eqb end_ j then Ok true else
      let* s := at_ ps start in
      let* t := at_ ps end_ in
      Ok (match intersect_line a b s t eps eps with Some _ => false | None => true end).
  Lemma diag_false eps ps i j a b l : foldM (diag_step eps ps i j a b) l false = Ok false.
  Proof. induction l; auto. Qed.
  Lemma diag_loop eps ps i j a b : 0 <= eps -> forall l, (forall k, In k l -> (k < length ps)%nat) ->
    exists r, foldM (diag_step eps ps i j a b) l true = Ok r /\
      (r = true <-> forall k s t, In k l -> apart (length ps) i j k -> nth_error ps k = Some s -> nth_error ps (S k mod length ps) = Some t -> ~ crosses eps a b s t).
  Proof.
    intros E. induction l as [|k l IH]; intros B; cbn [foldM].
    { exists true. split; [reflexivity|]. split; [intros _ k s t []|reflexivity]. }
    destruct IH as (r & F & R); [intros; apply B; right; auto|]. pose proof (B k (or_introl eq_refl)) as K.
    assert (K' : (S k mod length ps < length ps)%nat) by (apply Nat.mod_upper_bound; lia).
    destruct (nth_error ps k) as [s|] eqn:Ek; [|apply nth_error_None in Ek; lia].
    destruct (nth_error ps (S k mod length ps)) as [t|] eqn:Et; [|apply nth_error_None in Et; lia].
    unfold diag_step at 1. cbn [negb]. cbv zeta. rewrite Nat.add_1_r.
    destruct (Nat.eqb k i || Nat.eqb k j || Nat.eqb (S k mod length ps) i || Nat.eqb (S k mod length ps) j)%bool eqn:Q.
    - cbn [bind]. exists r. split; auto. rewrite R. split; intros H k0 s0 t0 I A; [|apply H; auto; right; auto].
      destruct I as [<-|I]; [|apply H; auto]. exfalso. destruct A as (A1 & A2 & A3 & A4).
      rewrite !orb_true_iff, !Nat.eqb_eq in Q. tauto.
    - unfold at_ at 1. rewrite Ek. cbn [unwrap bind]. unfold at_ at 1. rewrite Et. cbn [unwrap bind].
      destruct (intersect_line a b s t eps eps) as [x|] eqn:IL.
      + exists false. split; [apply diag_false|]. split; [discriminate|]. intros H. exfalso.
        apply (H k s t); auto; [left; auto| |apply crosses_line; eauto].
        rewrite !orb_false_iff, !Nat.eqb_neq in Q. unfold apart. tauto.
      + exists r. split; auto. rewrite R. split; intros H k0 s0 t0 I A E1 E2; [|apply (H k0); auto; right; auto].
        destruct I as [<-|I]; [|apply (H k0); auto]. rewrite Ek in E1. rewrite Et in E2. injection E1 as <-. injection E2 as <-.
        intros C. apply crosses_line in C as (x & C); auto. congruence.
  Qed.
  Theorem valid_diagonal_ok eps ps T i j a b : 0 <= eps -> triangulates ps T -> same_side T ->
    nth_error ps i = Some a -> nth_error ps j = Some b -> i <> j -> ~ neighbours (length ps) i j -> off_boundary (midpoint a b) ps ->
    exists r, valid_diagonal pos neg eps ps i j = Ok r /\
      (r = true <-> (exists t, In t T /\ in_triangle (midpoint a b) t) /\
         forall k s t, apart (length ps) i j k -> nth_error ps k = Some s -> nth_error ps (S k mod length ps) = Some t -> ~ crosses eps a b s t).
  Proof.
    intros E TR SS A B NE NN OFF. destruct (contains_ok ps T (midpoint a b) TR SS OFF) as (c & C & Cc).
    assert (LI : (i < length ps)%nat) by (apply nth_error_Some; congruence).
    assert (LJ : (j < length ps)%nat) by (apply nth_error_Some; congruence).
    unfold neighbours in NN. unfold valid_diagonal. cbv zeta. rewrite (proj2 (Nat.eqb_neq i j)) by auto.
    rewrite (proj2 (Nat.eqb_neq (j + 1) i)), (proj2 (Nat.eqb_neq (i + 1) j)) by lia.
    cbn [orb]. rewrite (proj2 (Nat.eqb_neq (length ps) 0)) by lia. cbn [negb assert].
    assert (X : ((i =? 0)%nat && (j =? length ps - 1)%nat || (j =? 0)%nat && (i =? length ps - 1)%nat)%bool = false).
    { apply not_true_iff_false. rewrite orb_true_iff, !andb_true_iff, !Nat.eqb_eq. lia. }
    rewrite X. unfold at_ at 1. rewrite A. cbn [unwrap bind]. unfold at_ at 1. rewrite B. cbn [unwrap bind].
    rewrite (contains_ext ps _ (midpoint a b)), C; auto; [|cbn; field|cbn; field]. cbn [bind].
    destruct (diag_loop eps ps i j a b E (seq 0 (length ps))) as (r & F & R); [intros k I; apply in_seq in I; lia|].
    destruct c; cbn [negb].
    - exists r. split; [exact F|]. rewrite R. split.
      + intros H. split; [apply Cc; auto|]. intros k s t AP K1 K2. apply (H k); auto. apply in_seq. assert (k < length ps)%nat by (apply nth_error_Some; congruence). lia.
      + intros (_ & H) k s t _. apply H.
    - exists false. split; auto. split; [discriminate|]. intros (H & _). apply Cc in H. discriminate.
  Qed.
End Tests.
