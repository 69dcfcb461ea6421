(** Which diagonal [min_weight_quad] picks. *)
From Coq Require Import QArith List Bool Lqa Qfield.
From Verif Require Import Base Tess GeoSpec Geo.
Import ListNotations.

Lemma pos_pos pos x : sign_test pos -> 0 < x -> pos x = true.
Proof. intros [H _]. auto. Qed.
Lemma pos_neg pos x : sign_test pos -> x < 0 -> pos x = false.
Proof. intros [_ H]. auto. Qed.
Lemma convex_pos pos p a b : sign_test pos -> 0 < orient a p b -> convex pos p a b = true.
Proof.
  intros S H. apply pos_pos; auto. unfold orient, perp_dot, vsub in *. cbn in *.
  eapply Qlt_le_trans; [exact H|]. apply Qle_lteq. right. ring.
Qed.
Lemma convex_neg pos p a b : sign_test pos -> orient a p b < 0 -> convex pos p a b = false.
Proof.
  intros S H. apply pos_neg; auto. unfold orient, perp_dot, vsub in *. cbn in *.
  eapply Qle_lt_trans; [|exact H]. apply Qle_lteq. right. ring.
Qed.
Lemma orient_swap a b c : orient c b a == - orient a b c.
Proof. unfold orient. ring. Qed.
Lemma orient_turn a b c : orient b c a == orient a b c.
Proof. unfold orient. ring. Qed.

Definition quadQ pos := min_weight_quad distance_squared Qle_bool (convex pos).

Section Q4.
  Variables (pos : Q -> bool) (p0 p1 p2 p3 : pt) (i0 i1 i2 i3 : nat).
  Hypothesis SP : sign_test pos.
  Let vs := [(p0, i0); (p1, i1); (p2, i2); (p3, i3)].
  Let c0 := orient p3 p0 p1. Let c1 := orient p0 p1 p2. Let c2 := orient p1 p2 p3. Let c3 := orient p2 p3 p0.
  Lemma corner_sum : c0 + c2 == c1 + c3.
  Proof. unfold c0, c1, c2, c3, orient. ring. Qed.

  (** corners 0 and 2 convex: always the diagonal 1-3 *)
  Lemma quad_even : 0 < c0 -> 0 < c2 -> quadQ pos vs = Ok [(i1, i2, i3); (i1, i3, i0)].
  Proof.
    intros H0 H2. unfold quadQ, min_weight_quad, vs.
    rewrite (@convex_pos pos p0 p3 p1), (@convex_pos pos p2 p1 p3); auto. cbn [andb].
    destruct (Qle_bool _ _); [|reflexivity].
    destruct (Qlt_le_dec 0 c1) as [L|L].
    - rewrite (@convex_neg pos p1 p2 p0); auto. rewrite orient_swap. fold c1. lra.
    - assert (L3 : 0 < c3) by (pose proof corner_sum; lra).
      rewrite (@convex_neg pos p3 p0 p2), andb_false_r; auto. rewrite orient_swap. fold c3. lra.
  Qed.
  (** corners 1 and 3 convex, corner 0 or 2 reflex: the diagonal 0-2 exactly if 1-3 is strictly shorter *)
  Lemma quad_reflex : 0 < c1 -> 0 < c3 -> c0 < 0 \/ c2 < 0 ->
    quadQ pos vs = Ok (if Qle_bool (distance_squared p0 p2) (distance_squared p1 p3)
                       then [(i1, i2, i3); (i1, i3, i0)] else [(i0, i1, i2); (i0, i2, i3)]).
  Proof.
    intros H1 H3 R. unfold quadQ, min_weight_quad, vs.
    destruct (Qle_bool _ _).
    - rewrite (@convex_neg pos p1 p2 p0); auto. rewrite orient_swap. fold c1. lra.
    - destruct R as [R|R].
      + rewrite (@convex_neg pos p0 p3 p1); auto.
      + rewrite (@convex_neg pos p2 p1 p3), andb_false_r; auto.
  Qed.
  (** clockwise, corners 1 and 3 convex: always the diagonal 0-2 *)
  Lemma quad_cw : c1 < 0 -> c3 < 0 -> quadQ pos vs = Ok [(i0, i1, i2); (i0, i2, i3)].
  Proof.
    intros H1 H3. unfold quadQ, min_weight_quad, vs.
    rewrite (@convex_pos pos p1 p2 p0), (@convex_pos pos p3 p0 p2); auto.
    2:{ rewrite orient_swap. fold c3. lra. } 2:{ rewrite orient_swap. fold c1. lra. }
    cbn [andb]. destruct (Qle_bool _ _); [reflexivity|].
    destruct (Qlt_le_dec c0 0) as [L|L].
    - rewrite (@convex_neg pos p0 p3 p1); auto.
    - rewrite (@convex_neg pos p2 p1 p3), andb_false_r; auto. fold c2. pose proof corner_sum. lra.
  Qed.
End Q4.

Definition posQ (x : Q) : bool := negb (Qle_bool x 0).
Lemma posQ_sign : sign_test posQ.
Proof.
  split; intros x H; unfold posQ; destruct (Qle_bool x 0) eqn:E; try reflexivity.
  - apply Qle_bool_iff in E. lra.
  - exfalso. assert (Qle_bool x 0 = true) by (apply Qle_bool_iff; lra). congruence.
Qed.
Lemma quad_longer : exists pos p0 p1 p2 p3, sign_test pos /\
    (0 < orient p3 p0 p1)%Q /\ (0 < orient p0 p1 p2)%Q /\ (0 < orient p1 p2 p3)%Q /\ (0 < orient p2 p3 p0)%Q /\
    (dist2 p0 p2 < dist2 p1 p3)%Q /\
    quadQ pos [(p0, 0%nat); (p1, 1%nat); (p2, 2%nat); (p3, 3%nat)] = Ok [(1, 2, 3); (1, 3, 0)]%nat.
Proof.
  exists posQ, (0, -1), (5, 0), (0, 1), (-5, 0). split; [apply posQ_sign|]. repeat split; vm_compute; reflexivity.
Qed.
Lemma quad_invalid : exists pos p0 p1 p2 p3, sign_test pos /\
    (orient p3 p0 p1 < 0)%Q /\ (0 < orient p0 p1 p2)%Q /\ (0 < orient p1 p2 p3)%Q /\ (0 < orient p2 p3 p0)%Q /\
    quadQ pos [(p0, 0%nat); (p1, 1%nat); (p2, 2%nat); (p3, 3%nat)] = Ok [(1, 2, 3); (1, 3, 0)]%nat /\
    (orient p1 p3 p0 < 0)%Q.
Proof.
  exists posQ, (0, 4), (5, 0), (0, 5), (-5, 0). split; [apply posQ_sign|]. repeat split; vm_compute; reflexivity.
Qed.
Lemma quad_even_ex : exists p0 p1 p2 p3, (0 < orient p3 p0 p1)%Q /\ (0 < orient p1 p2 p3)%Q /\ sign_test posQ /\
    quadQ posQ [(p0, 5%nat); (p1, 6%nat); (p2, 7%nat); (p3, 8%nat)] = Ok [(6, 7, 8); (6, 8, 5)]%nat.
Proof. exists (0, 0), (2, 1), (5, 0), (1, 4). repeat split; try apply posQ_sign; vm_compute; reflexivity. Qed.
Lemma quad_reflex_ex : exists p0 p1 p2 p3, (0 < orient p0 p1 p2)%Q /\ (0 < orient p2 p3 p0)%Q /\ (orient p3 p0 p1 < 0)%Q /\
    quadQ posQ [(p0, 5%nat); (p1, 6%nat); (p2, 7%nat); (p3, 8%nat)] = Ok [(5, 6, 7); (5, 7, 8)]%nat.
Proof. exists (0, 1), (2, 0), (0, 9), (-2, 0). repeat split; vm_compute; reflexivity. Qed.
