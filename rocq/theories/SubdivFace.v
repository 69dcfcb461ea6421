(** Cutting a face whose sides are split into four. *)
From Coq Require Import List Arith Lia Bool.
From Verif Require Import Base DVec DVecFacts Mesh Spec Rep Splice Cycle Traverse Room Ops Ops2 Subdivision SubdivStep.
Import ListNotations.
Set Implicit Arguments.
Unset Strict Implicit.

(** a function changed at the listed arguments *)
Fixpoint asc {B} (l : list (nat * B)) (f : nat -> B) (j : nat) : B :=
  match l with
  | [] => f j
  | (i, b) :: t => if j =? i then b else asc t f j
  end.

Section Face.
  Context {VP EP FP : Type}.
  Notation mesh := (mesh VP EP FP).
  Notation graph := (graph VP EP FP).
  Implicit Types (g : graph) (m : mesh) (c : cfg).

  (** the three corner half-edges, their second halves, the new pairs and the new faces *)
  Record parts := mkP { x1 : nat; x2 : nat; x3 : nat; s1 : nat; s2 : nat; s3 : nat;
    c1 : nat; c2 : nat; c3 : nat; d1 : nat; d2 : nat; d3 : nat; k1 : nat; k2 : nat; k3 : nat; k4 : nat }.

  Definition finish_graph (P : parts) (f : nat) (z : FP) (dE : EP) g : graph :=
    mkG (asc [(c1 P, true); (c2 P, true); (c3 P, true); (d1 P, true); (d2 P, true); (d3 P, true)] (lv g))
        (asc [(x1 P, c1 P); (x2 P, c2 P); (x3 P, c3 P); (c1 P, s3 P); (c2 P, s1 P); (c3 P, s2 P);
              (d1 P, d2 P); (d2 P, d3 P); (d3 P, d1 P)] (nx g))
        (asc [(c1 P, x1 P); (c2 P, x2 P); (c3 P, x3 P); (s3 P, c1 P); (s1 P, c2 P); (s2 P, c3 P);
              (d1 P, d3 P); (d2 P, d1 P); (d3 P, d2 P)] (pv g))
        (asc [(c1 P, d1 P); (c2 P, d2 P); (c3 P, d3 P); (d1 P, c1 P); (d2 P, c2 P); (d3 P, c3 P)] (tw g))
        (asc [(c1 P, og g (s1 P)); (c2 P, og g (s2 P)); (c3 P, og g (s3 P));
              (d1 P, og g (s3 P)); (d2 P, og g (s1 P)); (d3 P, og g (s2 P))] (og g))
        (asc [(x1 P, Some (k1 P)); (x2 P, Some (k2 P)); (x3 P, Some (k3 P));
              (c1 P, Some (k1 P)); (c2 P, Some (k2 P)); (c3 P, Some (k3 P));
              (s3 P, Some (k1 P)); (s1 P, Some (k2 P)); (s2 P, Some (k3 P));
              (d1 P, Some (k4 P)); (d2 P, Some (k4 P)); (d3 P, Some (k4 P))] (fc g))
        (asc [(c1 P, Some dE); (c2 P, Some dE); (c3 P, Some dE); (d1 P, Some dE); (d2 P, Some dE); (d3 P, Some dE)] (ep g))
        (lvv g) (ve g) (vp g)
        (asc [(k1 P, true); (k2 P, true); (k3 P, true); (k4 P, true)] (fu (lvf g) f false))
        (asc [(k1 P, x1 P); (k2 P, x2 P); (k3 P, x3 P); (k4 P, d1 P)] (fe g))
        (asc [(k1 P, Some (false, z)); (k2 P, Some (false, z)); (k3 P, Some (false, z)); (k4 P, Some (false, z))] (fu (fp g) f None)).

  (** the tail of [subdivide_face] *)
  Definition finish (dE : EP) c m f (l : list nat) : res mesh :=
    let* (m2, fp) := remove_face c m f in
    let* m3 := foldM (cut_corner dE c fp) l m2 in
    let* n := g_next m3 (hd 0 l) in
    let* t := twin_id m3 n in
    let* (m4, _) := close_hole c m3 t fp false in
    Ok m4.

  Lemma dead_ne g i j : lv g i = true -> lv g j = false -> i <> j.
  Proof. congruence. Qed.
End Face.

(** all pairwise disequalities of a duplicate-free list *)
Ltac nodup_ne H := repeat match type of H with
  | NoDup (_ :: _) => let N := fresh "N" in apply NoDup_cons_iff in H; destruct H as [N H]; cbn [In] in N
  end; clear H;
  repeat match goal with
  | N : ~ (?a = ?b \/ _) |- _ => let X := fresh "NE" in assert (X : a <> b) by (intros ->; apply N; left; reflexivity);
      let N' := fresh "N" in match type of N with ~ (_ \/ ?r) => assert (N' : ~ r) by (intros ?; apply N; right; assumption) end; clear N
  | N : ~ False |- _ => clear N
  end.

Section Finish.
  Context {VP EP FP : Type}.
  Notation mesh := (mesh VP EP FP).
  Notation graph := (graph VP EP FP).
  Implicit Types (g : graph) (m : mesh) (c : cfg).

  Lemma finish_ok dE c m g f a1 a2 a3 b1 b2 b3 a b d :
    rep m [] [] [] g -> room c m (6 + a) b (3 + d) -> lvf g f = true -> fe g f = a1 ->
    NoDup [a1; a2; a3; b1; b2; b3] ->
    (forall j, In j [a1; a2; a3; b1; b2; b3] -> lv g j = true /\ fc g j = Some f) ->
    nx g a1 = b1 -> nx g b1 = a2 -> nx g a2 = b2 -> nx g b2 = a3 -> nx g a3 = b3 -> nx g b3 = a1 ->
    pv g a1 = b3 -> pv g b1 = a1 -> pv g a2 = b1 -> pv g b2 = a2 -> pv g a3 = b2 -> pv g b3 = a3 ->
    lvv g (og g b1) = true -> lvv g (og g b2) = true -> lvv g (og g b3) = true ->
    exists m' P cu y, finish dE c m f [a1; a2; a3] = Ok m' /\ fp g f = Some (cu, y) /\
      (x1 P = a1 /\ x2 P = a2 /\ x3 P = a3 /\ s1 P = b1 /\ s2 P = b2 /\ s3 P = b3) /\
      NoDup [c1 P; c2 P; c3 P; d1 P; d2 P; d3 P] /\
      (forall j, In j [c1 P; c2 P; c3 P; d1 P; d2 P; d3 P] -> lv g j = false) /\
      NoDup [k1 P; k2 P; k3 P; k4 P] /\
      (forall k, In k [k1 P; k2 P; k3 P; k4 P] -> lvf g k = true -> k = f) /\
      rep m' [] [] [] (finish_graph P f y dE g) /\ room c m' a b d.
  Proof.
    intros R RM LF FE ND LL NX1 NX2 NX3 NX4 NX5 NX6 PV1 PV2 PV3 PV4 PV5 PV6 V1 V2 V3.
    assert (L1 : lv g a1 = true /\ fc g a1 = Some f) by (apply LL; cbn; auto 10).
    assert (L2 : lv g a2 = true /\ fc g a2 = Some f) by (apply LL; cbn; auto 10).
    assert (L3 : lv g a3 = true /\ fc g a3 = Some f) by (apply LL; cbn; auto 10).
    assert (L4 : lv g b1 = true /\ fc g b1 = Some f) by (apply LL; cbn; auto 10).
    assert (L5 : lv g b2 = true /\ fc g b2 = Some f) by (apply LL; cbn; auto 10).
    assert (L6 : lv g b3 = true /\ fc g b3 = Some f) by (apply LL; cbn; auto 10).
    destruct L1 as [L1 _], L2 as [L2 _], L3 as [L3 _], L4 as [L4 _], L5 as [L5 _], L6 as [L6 _].
    nodup_ne ND. unfold finish.
    destruct (@remove_face_raw _ _ _ c m g f [b1; a2; b2; a3; b3] (6 + a) b (3 + d) R LF) as (m1 & y & cu & -> & FP1 & R1 & RM1); auto.
    { rewrite FE, is_cycle_cons. split.
      - repeat constructor; cbn; intuition.
      - cbn. auto 10. }
    { rewrite FE. intros j I. cut (lv g j = true /\ fc g j = Some f); [intros [? ?]; split; congruence|].
      apply LL. cbn in *. intuition. }
    rewrite FE in R1. cbn [bind].
    set (g1 := del_face f [a1; b1; a2; b2; a3; b3] g) in *.
    assert (M : forall j, In j [a1; b1; a2; b2; a3; b3] -> fc g1 j = None).
    { intros j I. unfold g1. cbn [fc del_face]. apply mem_in in I. cbn -[mem]. rewrite I. reflexivity. }
    cbn [foldM].
    (* corner 1 *)
    destruct (@cut_corner_ok _ _ _ c m1 g1 dE y a1 b3 a3 b1 (4 + a) b (3 + d) R1 RM1)
      as (m2 & q1 & u1 & w1 & -> & DK1 & DU1 & DW1 & N1 & R2 & RM2);
      try (unfold g1; cbn; solve [auto | congruence]); try (apply M; cbn; auto 10).
    cbn [bind]. set (g2 := corner_graph a1 b3 a3 b1 q1 u1 w1 y dE g1) in *.
    change (lv g u1 = false) in DU1. change (lv g w1 = false) in DW1.
    assert (HU1 : forall j, lv g j = true -> j <> u1) by (intros j Hj; exact (dead_ne Hj DU1)).
    assert (HW1 : forall j, lv g j = true -> j <> w1) by (intros j Hj; exact (dead_ne Hj DW1)).
    pose proof (HU1 _ L1); pose proof (HU1 _ L2); pose proof (HU1 _ L3); pose proof (HU1 _ L4); pose proof (HU1 _ L5); pose proof (HU1 _ L6).
    pose proof (HW1 _ L1); pose proof (HW1 _ L2); pose proof (HW1 _ L3); pose proof (HW1 _ L4); pose proof (HW1 _ L5); pose proof (HW1 _ L6).
    (* corner 2 *)
    destruct (@cut_corner_ok _ _ _ c m2 g2 dE y a2 b1 w1 b2 (2 + a) b (2 + d) R2 RM2)
      as (m3 & q2 & u2 & w2 & -> & DK2 & DU2 & DW2 & N2 & R3 & RM3);
      try (unfold g2, g1; cbn -[Nat.eqb]; unfold fu; ev; solve [auto | congruence]);
      try (unfold g2; cbn -[Nat.eqb g1]; ev; apply M; cbn; auto 10).
    cbn [bind]. set (g3 := corner_graph a2 b1 w1 b2 q2 u2 w2 y dE g2) in *.
    assert (X : forall j, lv g2 j = false -> lv g j = false /\ j <> u1 /\ j <> w1).
    { intros j. unfold g2, g1. cbn -[Nat.eqb]. unfold fu. destruct (Nat.eqb_spec j w1), (Nat.eqb_spec j u1); auto; discriminate. }
    apply X in DU2 as (DU2 & ? & ?), DW2 as (DW2 & ? & ?). clear X.
    assert (HU2 : forall j, lv g j = true -> j <> u2) by (intros j Hj; exact (dead_ne Hj DU2)).
    assert (HW2 : forall j, lv g j = true -> j <> w2) by (intros j Hj; exact (dead_ne Hj DW2)).
    pose proof (HU2 _ L1); pose proof (HU2 _ L2); pose proof (HU2 _ L3); pose proof (HU2 _ L4); pose proof (HU2 _ L5); pose proof (HU2 _ L6).
    pose proof (HW2 _ L1); pose proof (HW2 _ L2); pose proof (HW2 _ L3); pose proof (HW2 _ L4); pose proof (HW2 _ L5); pose proof (HW2 _ L6).
    (* corner 3 *)
    destruct (@cut_corner_ok _ _ _ c m3 g3 dE y a3 b2 w2 w1 a b (1 + d) R3 RM3)
      as (m4 & q3 & u3 & w3 & -> & DK3 & DU3 & DW3 & N3 & R4 & RM4);
      try (unfold g3, g2, g1; cbn -[Nat.eqb]; unfold fu; ev; solve [auto | congruence]);
      try (unfold g3, g2; cbn -[Nat.eqb g1]; ev; apply M; cbn; auto 10).
    cbn [bind]. set (g4 := corner_graph a3 b2 w2 w1 q3 u3 w3 y dE g3) in *.
    assert (X : forall j, lv g3 j = false -> lv g j = false /\ j <> u1 /\ j <> w1 /\ j <> u2 /\ j <> w2).
    { intros j. unfold g3, g2, g1. cbn -[Nat.eqb]. unfold fu.
      destruct (Nat.eqb_spec j w1), (Nat.eqb_spec j u1), (Nat.eqb_spec j w2), (Nat.eqb_spec j u2); auto; discriminate. }
    apply X in DU3 as (DU3 & ? & ? & ? & ?), DW3 as (DW3 & ? & ? & ? & ?). clear X.
    assert (HU3 : forall j, lv g j = true -> j <> u3) by (intros j Hj; exact (dead_ne Hj DU3)).
    assert (HW3 : forall j, lv g j = true -> j <> w3) by (intros j Hj; exact (dead_ne Hj DW3)).
    pose proof (HU3 _ L1); pose proof (HU3 _ L2); pose proof (HU3 _ L3); pose proof (HU3 _ L4); pose proof (HU3 _ L5); pose proof (HU3 _ L6).
    pose proof (HW3 _ L1); pose proof (HW3 _ L2); pose proof (HW3 _ L3); pose proof (HW3 _ L4); pose proof (HW3 _ L5); pose proof (HW3 _ L6).
    clear HU1 HU2 HU3 HW1 HW2 HW3.
    (* the hole in the middle *)
    cbn [hd]. rewrite (r_next R4). unfold g4 at 1 2 3, g3 at 1 2 3, g2 at 1 2 3, g1 at 1 2 3. cbn -[Nat.eqb]. unfold fu. ev. rewrite L1. cbn [andb bind].
    rewrite (r_twin_id R4). unfold g4 at 1 2, g3 at 1 2, g2 at 1 2, g1 at 1 2. cbn -[Nat.eqb]. unfold fu. ev. cbn [bind].
    destruct (@close_hole_raw _ _ _ c m4 g4 w1 [w2; w3] y false a b d R4) as (m5 & q4 & -> & DK4 & R5 & RM5); auto.
    { rewrite is_cycle_cons. split.
      - repeat constructor; cbn; intuition.
      - unfold g4, g3, g2, g1. cbn -[Nat.eqb]. split; [split; [|split; [|exact I]]|]; ev; auto. }
    { unfold g4, g3, g2, g1. cbn -[Nat.eqb]. unfold fu. intros j [<-|[<-|[<-|[]]]]; ev; auto. }
    cbn [bind]. exists m5, (mkP a1 a2 a3 b1 b2 b3 u1 u2 u3 w1 w2 w3 q1 q2 q3 q4), cu, y.
    split; [reflexivity|]. split; [exact FP1|]. cbn [x1 x2 x3 s1 s2 s3 c1 c2 c3 d1 d2 d3 k1 k2 k3 k4].
    split; [auto 10|]. split; [repeat constructor; cbn; intuition|].
    split; [intros j; cbn; intuition; subst; auto|].
    assert (X1 : q1 <> f -> lvf g q1 = false).
    { unfold g1 in DK1. cbn -[Nat.eqb] in DK1. unfold fu in DK1. destruct (Nat.eqb_spec q1 f); tauto. }
    assert (X2 : q2 <> q1 /\ (q2 <> f -> lvf g q2 = false)).
    { unfold g2, g1 in DK2. cbn -[Nat.eqb] in DK2. unfold fu in DK2. destruct (Nat.eqb_spec q2 q1), (Nat.eqb_spec q2 f); try discriminate; tauto. }
    assert (X3 : q3 <> q1 /\ q3 <> q2 /\ (q3 <> f -> lvf g q3 = false)).
    { unfold g3, g2, g1 in DK3. cbn -[Nat.eqb] in DK3. unfold fu in DK3.
      destruct (Nat.eqb_spec q3 q2), (Nat.eqb_spec q3 q1), (Nat.eqb_spec q3 f); try discriminate; tauto. }
    assert (X4 : q4 <> q1 /\ q4 <> q2 /\ q4 <> q3 /\ (q4 <> f -> lvf g q4 = false)).
    { unfold g4, g3, g2, g1 in DK4. cbn -[Nat.eqb] in DK4. unfold fu in DK4.
      destruct (Nat.eqb_spec q4 q3), (Nat.eqb_spec q4 q2), (Nat.eqb_spec q4 q1), (Nat.eqb_spec q4 f); try discriminate; tauto. }
    destruct X2 as [? X2], X3 as (? & ? & X3), X4 as (? & ? & ? & X4).
    split; [repeat constructor; cbn; intuition|].
    split. { intros k I Lk. destruct (Nat.eq_dec k f) as [|Nk]; auto. exfalso.
      cbn in I. destruct I as [<-|[<-|[<-|[<-|[]]]]]; [rewrite X1 in Lk|rewrite X2 in Lk|rewrite X3 in Lk|rewrite X4 in Lk]; auto; discriminate. }
    split; [|exact RM5]. clear R1 R2 R3 R4 R RM RM1 RM2 RM3 RM4 RM5 X1 X2 X3 X4 DK1 DK2 DK3 DK4 LL M.
    eapply rep_geq_l; [exact R5|]. clear R5.
    unfold g4, g3, g2, g1. clear g4 g3 g2 g1.
    assert (ex : forall j k : nat, {j = k} + {j <> k}) by apply Nat.eq_dec.
    split; intros j; cbn -[Nat.eqb]; unfold fu, mem; cbn -[Nat.eqb]; intros; auto.
    all: try (destruct (ex j a1) as [E|?]; [rewrite E in *; ev; cbn [orb]; auto; congruence|]);
      try (destruct (ex j a2) as [E|?]; [rewrite E in *; ev; cbn [orb]; auto; congruence|]);
      try (destruct (ex j a3) as [E|?]; [rewrite E in *; ev; cbn [orb]; auto; congruence|]);
      try (destruct (ex j b1) as [E|?]; [rewrite E in *; ev; cbn [orb]; auto; congruence|]);
      try (destruct (ex j b2) as [E|?]; [rewrite E in *; ev; cbn [orb]; auto; congruence|]);
      try (destruct (ex j b3) as [E|?]; [rewrite E in *; ev; cbn [orb]; auto; congruence|]);
      try (destruct (ex j u1) as [E|?]; [rewrite E in *; ev; cbn [orb]; auto; congruence|]);
      try (destruct (ex j u2) as [E|?]; [rewrite E in *; ev; cbn [orb]; auto; congruence|]);
      try (destruct (ex j u3) as [E|?]; [rewrite E in *; ev; cbn [orb]; auto; congruence|]);
      try (destruct (ex j w1) as [E|?]; [rewrite E in *; ev; cbn [orb]; auto; congruence|]);
      try (destruct (ex j w2) as [E|?]; [rewrite E in *; ev; cbn [orb]; auto; congruence|]);
      try (destruct (ex j w3) as [E|?]; [rewrite E in *; ev; cbn [orb]; auto; congruence|]);
      try (destruct (ex j q1) as [E|?]; [rewrite E in *; ev; cbn [orb]; auto; congruence|]);
      try (destruct (ex j q2) as [E|?]; [rewrite E in *; ev; cbn [orb]; auto; congruence|]);
      try (destruct (ex j q3) as [E|?]; [rewrite E in *; ev; cbn [orb]; auto; congruence|]);
      try (destruct (ex j q4) as [E|?]; [rewrite E in *; ev; cbn [orb]; auto; congruence|]);
      ev; cbn [orb]; auto.
  Qed.
End Finish.
