(** Concrete faces for the face predicates, and wrong answers. *)
From Coq Require Import List Arith QArith Qabs Lqa Lia Bool.
From Verif Require Import Base DVec Mesh MeshEx Alg Transform TransEx Geo GeoSpec GeoMath GeoMathSpec GeoMathProofs
  Face3 Face3Spec Face3Proofs.
Import ListNotations.
Set Implicit Arguments.
Unset Strict Implicit.
Local Open Scope Q_scope.

(** ** checking finitely many corners *)
Lemma turns_all q (P : Q -> bool) : (length q <> 0)%nat -> forallb (fun i => P (turn q i)) (seq 0 (length q)) = true ->
  forall i, P (turn q i) = true.
Proof.
  intros L H i. rewrite <- turn_period by exact L. rewrite forallb_forall in H. apply H. apply in_seq.
  pose proof (Nat.mod_upper_bound i (length q) L). lia.
Qed.
Lemma turns_pos q : (length q <> 0)%nat -> forallb (fun i => Qlt_bool 0 (turn q i)) (seq 0 (length q)) = true ->
  forall i, 0 < turn q i.
Proof. intros L H i. apply Qlt_bool_iff. exact (turns_all (P := Qlt_bool 0) L H i). Qed.
Lemma turns_neg q : (length q <> 0)%nat -> forallb (fun i => Qlt_bool (turn q i) 0) (seq 0 (length q)) = true ->
  forall i, turn q i < 0.
Proof. intros L H i. apply Qlt_bool_iff. exact (turns_all (P := fun x => Qlt_bool x 0) L H i). Qed.
Lemma turns_ne q : (length q <> 0)%nat -> forallb (fun i => negb (Qeq_bool (turn q i) 0)) (seq 0 (length q)) = true ->
  no_straight q.
Proof.
  intros L H i. apply Qeq_bool_neq. apply negb_true_iff. exact (turns_all (P := fun x => negb (Qeq_bool x 0)) L H i).
Qed.
Lemma turns_prod q (P : Q -> bool) : (length q <> 0)%nat ->
  forallb (fun i => P (turn q i * turn q (i + 1))) (seq 0 (length q)) = true -> forall i, P (turn q i * turn q (i + 1)) = true.
Proof.
  intros L H. apply (up_to (P := fun a b => P (a * b) = true) L). intros i Hi. rewrite forallb_forall in H. apply H. apply in_seq. lia.
Qed.

(** ** faces in a plane *)
Definition p_o := qv [1; 2; 3]. Definition p_u := qv [1; 0; 1]. Definition p_v := qv [0; 1; 1].
Definition lift (q : pt) : nat -> Q := fun i => p_o i + fst q * p_u i + snd q * p_v i.
Lemma lift_planar q : planar_as p_o p_u p_v (map lift q) q.
Proof. unfold planar_as. induction q; cbn; constructor; [|assumption]. intros i _. reflexivity. Qed.
Lemma uv_spans : spans p_u p_v.
Proof. exists 2%nat. split; [lia|]. cbv. discriminate. Qed.

Definition house : list pt := [(0, 0); (4, 0); (4, 2); (2, 4); (0, 2)].
Definition star4 : list pt := [(0, 4); (1, 1); (4, 0); (1, -1); (0, -4); (-1, -1); (-4, 0); (-1, 1)].
Definition pentagram : list pt := [(0, 3); (2, -3); (-3, 1); (3, 1); (-2, -3)].
(** an L with the middle of every side as a further vertex *)
Definition ell : list pt :=
  [(0, 0); (2, 0); (4, 0); (4, 1); (4, 2); (3, 2); (2, 2); (2, 3); (2, 4); (1, 4); (0, 4); (0, 2)].
(** a square with the middle of one side as a further vertex *)
Definition box5 : list pt := [(0, 0); (1, 0); (2, 0); (2, 2); (0, 2)].

Lemma house_same : same_way house.
Proof. left. apply turns_pos; [discriminate|vm_compute; reflexivity]. Qed.
Lemma star4_ns : no_straight star4.
Proof. apply turns_ne; [discriminate|vm_compute; reflexivity]. Qed.
Lemma star4_alt : alternate star4.
Proof. intros i. apply Qlt_bool_iff. apply (turns_prod (P := fun x => Qlt_bool x 0)); [discriminate|vm_compute; reflexivity]. Qed.
Lemma pentagram_same : same_way pentagram.
Proof. right. apply turns_neg; [discriminate|vm_compute; reflexivity]. Qed.

Notation newell_q := (newell 0 Qplus Qmult Qminus (-1 # 2)).
Theorem star_accepted : planar_as p_o p_u p_v (map lift star4) star4 /\
  0 < turn star4 0 /\ turn star4 1 < 0 /\
  (forall pos, sign_test pos -> is_convex pos (map lift star4) = true) /\
  (forall pos eps, sign_test pos -> 0 < eps -> exists n, normal_naive true pos eps (map lift star4) = Ok n /\
    inner3 n (newell_q (map lift star4)) < 0).
Proof.
  split; [apply lift_planar|]. split; [vm_compute; reflexivity|]. split; [vm_compute; reflexivity|].
  assert (C : forall pos, sign_test pos -> is_convex pos (map lift star4) = true).
  { intros pos SP. apply (convex_iff SP uv_spans (lift_planar star4) star4_ns). right. exact star4_alt. }
  split; [exact C|]. intros pos eps SP E.
  unfold normal_naive. rewrite (C pos SP), (planar_complete E (lift_planar star4)) by (cbn; lia).
  cbn [bind andb negb orb assert map star4]. eexists. split; [reflexivity|]. vm_compute. reflexivity.
Qed.
Theorem pentagram_accepted : planar_as p_o p_u p_v (map lift pentagram) pentagram /\ crossing (1 # 1000) pentagram /\
  (forall pos, sign_test pos -> is_convex pos (map lift pentagram) = true).
Proof.
  split; [apply lift_planar|]. split; [apply crossing_exact; [lra|vm_compute; reflexivity]|].
  intros pos SP. exact (convex_convex SP uv_spans (lift_planar pentagram) pentagram_same).
Qed.
Theorem straight_accepted : planar_as p_o p_u p_v (map lift ell) ell /\ 0 < turn ell 1 /\ turn ell 5 < 0 /\
  (forall pos, (forall x, x == 0 -> pos x = true) -> is_convex pos (map lift ell) = true).
Proof.
  split; [apply lift_planar|]. split; [vm_compute; reflexivity|]. split; [vm_compute; reflexivity|].
  intros pos Z. apply (convex_straight Z (lift_planar ell)). intros i. apply Qeq_bool_eq.
  apply (turns_prod (P := fun x => Qeq_bool x 0)); [discriminate|vm_compute; reflexivity].
Qed.
Theorem straight_rejected : planar_as p_o p_u p_v (map lift box5) box5 /\ (forall i, 0 <= turn box5 i) /\
  exists pos, sign_test pos /\ is_convex pos (map lift box5) = false.
Proof.
  split; [apply lift_planar|]. split.
  - intros i. apply Qle_bool_iff. apply (turns_all (P := Qle_bool 0)); [discriminate|vm_compute; reflexivity].
  - exists (Qlt_bool 0). split; [|vm_compute; reflexivity]. split; intros x X.
    + apply Qlt_bool_iff, X.
    + destruct (Qlt_bool 0 x) eqn:B; [|reflexivity]. apply Qlt_bool_iff in B. lra.
Qed.

(** ** planarity *)
Definition skew : list (nat -> Q) := map qv [[0; 0; 0]; [1; 0; 0]; [1; 1; 0]; [0; 1; 1]].
Definition scaled (s : Q) (p : nat -> Q) : nat -> Q := fun i => s * p i.
Lemma skew_not_planar s o u v q : 0 < s -> ~ planar_as o u v (map (scaled s) skew) q.
Proof.
  intros S P. cbn [map skew] in P.
  inversion P as [|x1 y1 l1 q1 P0 Q1]; subst. inversion Q1 as [|x2 y2 l2 q2 P1 Q2]; subst.
  inversion Q2 as [|x3 y3 l3 q3 P2 Q3]; subst. inversion Q3 as [|x4 y4 l4 q4 P3 Q4]; subst.
  pose proof (dot_in_plane P0 P1 P2 P3) as D. unfold v_dot, v_cross, v_sub, scaled, qv in D. cbn [nth] in D.
  assert (X : s * s * s == 0) by lra. assert (0 < s * s) by nra. assert (0 < s * s * s) by nra. lra.
Qed.
Theorem small_accepted eps : 0 < eps -> exists s, 0 < s /\ is_planar eps (map (scaled s) skew) = Ok true /\
  forall o u v q, ~ planar_as o u v (map (scaled s) skew) q.
Proof.
  intros E. set (s := eps / (1 + eps)).
  assert (S : s * (1 + eps) == eps) by (unfold s; field; lra).
  assert (S0 : 0 < s) by (unfold s; apply Qlt_shift_div_l; lra).
  assert (S1 : s < 1) by nra. assert (S2 : s < eps) by nra.
  exists s. split; [exact S0|]. split; [|intros o u v q; apply skew_not_planar, S0].
  cbn [is_planar map skew forallb]. f_equal. apply andb_true_iff. split; [|apply andb_true_iff; split; [|reflexivity]];
    apply Qlt_bool_iff; apply Qabs_Qlt_condition; unfold v_dot, v_cross, v_sub, scaled, qv; cbn [nth].
  - split; lra.
  - assert (A : 0 < s * s) by nra. assert (B : s * s < 1) by nra. assert (C : s * s * s < s) by nra.
    assert (D : 0 < s * s * s) by nra. split; lra.
Qed.
Definition folded : list (nat -> Q) := map qv [[0; 0; 0]; [1; 0; 0]; [2; 0; 0]; [2; 2; 0]; [0; 2; 5]].
Theorem collinear_accepted : (forall eps, 0 < eps -> is_planar eps folded = Ok true) /\
  forall o u v q, spans u v -> ~ planar_as o u v folded q.
Proof.
  split.
  - intros eps E. apply planar_collinear; [exact E|]. intros i Hi. destruct i as [|[|[|i]]]; try lia; vm_compute; reflexivity.
  - intros o u v q _ P. cbn [folded map] in P.
    inversion P as [|x1 y1 l1 q1 P0 Q1]; subst. inversion Q1 as [|x2 y2 l2 q2 P1 Q2]; subst.
    inversion Q2 as [|x3 y3 l3 q3 P2 Q3]; subst. inversion Q3 as [|x4 y4 l4 q4 P3 Q4]; subst.
    inversion Q4 as [|x5 y5 l5 q5 P4 Q5]; subst.
    pose proof (dot_in_plane P0 P1 P3 P4) as D. vm_compute in D. discriminate D.
Qed.

(** ** self-intersections *)
(** the fourth vertex lies on the first edge *)
Definition touching : list pt := [(0, 0); (4, 0); (4, 4); (2, 0); (0, 4)].
(** the fourth edge lies on the first *)
Definition overlapping : list pt := [(0, 0); (4, 0); (4, 2); (3, 0); (1, 0); (0, 2)].
Definition bow (s : Q) : list pt := [(0, 0); (2 * s, 2); (2 * s, 0); (0, 2)].
Ltac no_cross i j L :=
  destruct i as [|[|[|[|[|[|i]]]]]]; destruct j as [|[|[|[|[|[|j]]]]]]; try (cbn [length] in L; lia).
Lemma touching_missed eps : 0 < eps -> has_self_intersections eps touching = false.
Proof.
  intros E. destruct (has_self_intersections eps touching) eqn:H; [|reflexivity]. apply crossing_exact in H; [|lra].
  destruct H as (i & j & x & L & P & (t & T1 & T2 & TX & TY) & (s & S1 & S2 & SX & SY)). unfold touching in L.
  exfalso. no_cross i j L; unfold cyc, touching in *; cbn in P, TX, TY, SX, SY; lra.
Qed.
Lemma overlapping_missed eps : 0 < eps -> has_self_intersections eps overlapping = false.
Proof.
  intros E. destruct (has_self_intersections eps overlapping) eqn:H; [|reflexivity]. apply crossing_exact in H; [|lra].
  destruct H as (i & j & x & L & P & (t & T1 & T2 & TX & TY) & (s & S1 & S2 & SX & SY)). unfold overlapping in L.
  exfalso. no_cross i j L; unfold cyc, overlapping in *; cbn in P, TX, TY, SX, SY; lra.
Qed.
Theorem contacts_missed eps : 0 < eps ->
  (~ simple_polygon touching /\ is_simple eps touching = true) /\
  (~ simple_polygon overlapping /\ is_simple eps overlapping = true).
Proof.
  intros E. unfold is_simple. rewrite (touching_missed E), (overlapping_missed E).
  split; (split; [|reflexivity]); intros S.
  - destruct (S 0%nat 2%nat (2, 0)) as [[[A _]|[A _]] _]; try discriminate A; [cbn; lia| |].
    + exists (1 # 2). repeat split; discriminate || reflexivity.
    + exists 1. repeat split; discriminate || reflexivity.
  - destruct (S 0%nat 3%nat (2, 0)) as [[[A _]|[A _]] _]; try discriminate A; [cbn; lia| |].
    + exists (1 # 2). repeat split; discriminate || reflexivity.
    + exists (1 # 2). repeat split; discriminate || reflexivity.
Qed.
Theorem thin_missed eps : 0 < eps -> exists s, 0 < s /\ crossing 0 (bow s) /\ is_simple eps (bow s) = true.
Proof.
  intros E. exists (eps / 8). set (s := eps / 8). assert (SE : 8 * s == eps) by (unfold s; field). clearbody s.
  split; [lra|]. split.
  - exists 0%nat, 2%nat, (s, 1). split; [cbn; lia|]. unfold cyc, bow. cbn [length nth fst snd Nat.add Nat.modulo Nat.divmod Nat.sub]. split.
    + eapply Qlt_le_trans; [|apply Qle_Qabs]. lra.
    + split; exists (1 # 2); cbn [fst snd]; repeat split; lra.
  - unfold is_simple. cbn [has_holes negb andb]. apply negb_true_iff.
    destruct (has_self_intersections eps (bow s)) eqn:H; [|reflexivity]. apply crossing_exact in H; [|lra].
    destruct H as (i & j & x & L & P & (t & T1 & T2 & TX & TY) & (w & W1 & W2 & WX & WY)). unfold bow in L. cbn [length] in L.
    assert (Q : Qabs (8 * s) == 8 * s) by (apply Qabs_pos; lra).
    exfalso. no_cross i j L; unfold cyc, bow in *; cbn [length nth fst snd Nat.add Nat.modulo Nat.divmod Nat.sub] in P, TX, TY, WX, WY.
    all: try (match type of P with _ < Qabs ?z => first [setoid_replace z with (8 * s) in P by ring | setoid_replace z with (- (8 * s)) in P by ring] end;
      rewrite ?Qabs_opp, Q in P; lra).
    all: nra.
Qed.

(** ** a face of a mesh *)
Definition ex_house : mesh (pnu Q) (curve Q) nat := get_ok empty_mesh
  (let* (m, _) := insert_polygon (Linear Q) 7%nat c0 empty_mesh (map (fun p => mkP (lift p) (qv []) (qv [])) house) in Ok m).
(** [insert_polygon] makes the face on the other side *)
Definition house_read : list pt := [(0, 0); (0, 2); (2, 4); (4, 2); (4, 0)].
Lemma house_points : exists l, face_points ex_house 0 = Ok l /\ length l = 5%nat /\ planar_as p_o p_u p_v l house_read.
Proof.
  destruct (face_points ex_house 0) as [l| |] eqn:E; [|vm_compute in E; discriminate E..].
  exists l. split; [reflexivity|]. vm_compute in E. injection E as <-. split; [reflexivity|].
  unfold planar_as, house_read. repeat (apply Forall2_cons; [intros i Hi; destruct i as [|[|[|i]]]; [reflexivity..|lia]|]). apply Forall2_nil.
Qed.
Lemma house_read_same : same_way house_read.
Proof. right. apply turns_neg; [discriminate|vm_compute; reflexivity]. Qed.
Lemma house_simple : simple_polygon house.
Proof.
  intros i j x L (t & T1 & T2 & TX & TY) (s & S1 & S2 & SX & SY). unfold house in L.
  no_cross i j L; unfold same_point, cyc, house in *; cbn in TX, TY, SX, SY |- *;
    try (exfalso; lra);
    (split; [first [left; split; lra | right; split; lra] | first [left; split; lra | right; split; lra]]).
Qed.
