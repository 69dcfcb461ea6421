(** Proofs about the weighted matrices. *)
From Coq Require Import List Arith Lia Lra Reals ZArith Bool Permutation.
From Verif Require Import Base DVec DVecFacts Mesh MeshMore Spec Rep Cycle Traverse MeshSpec MeshProofs MeshFacts Topo TopoSpec TopoProofs NetProofs NetEucl NetEuclSpec.
Import ListNotations.
Set Implicit Arguments.
Unset Strict Implicit.
Local Arguments abs : simpl never.

Lemma sq_sum (p q : nat -> R) : forall l, fold_right (fun i s => ((p i - q i) * (p i - q i) + s)%R) 0%R l = rsum (fun i => ((p i - q i) ^ 2)%R) l.
Proof. induction l as [|x l IH]; cbn [fold_right]; [reflexivity|]. unfold rsum in *. cbn [map fold_right]. rewrite IH. ring. Qed.
Lemma sq_nonneg (p q : nat -> R) l : (0 <= rsum (fun i => (p i - q i) ^ 2) l)%R.
Proof.
  unfold rsum. induction l as [|x l IH]; cbn [map fold_right]; [lra|]. pose proof (pow2_ge_0 (p x - q x)). lra.
Qed.
Lemma distance_ok D p q : is_distance D p q (distance D p q).
Proof.
  unfold is_distance, distance, dist2. rewrite sq_sum. split; [apply sqrt_pos|].
  rewrite <- Rsqr_pow2. apply Rsqr_sqrt, sq_nonneg.
Qed.
Lemma distance_unique D p q a b : is_distance D p q a -> is_distance D p q b -> a = b.
Proof.
  intros [A1 A2] [B1 B2]. rewrite <- B2 in A2. rewrite <- !Rsqr_pow2 in A2. apply Rsqr_inj; auto.
Qed.
Lemma distance_sym D p q : distance D p q = distance D q p.
Proof.
  apply (@distance_unique D p q); [apply distance_ok|]. destruct (distance_ok D q p) as [A B]. split; auto. rewrite B.
  unfold dist2, rsum. f_equal. apply map_ext. intros; ring.
Qed.
Lemma distance_refl D p : distance D p p = 0%R.
Proof.
  apply (@distance_unique D p p); [apply distance_ok|]. split; [lra|]. unfold dist2, rsum.
  induction (seq 0 D) as [|x l IH]; cbn [map fold_right]; [ring|]. rewrite <- IH. ring.
Qed.

Lemma rsum_ext {A} (f h : A -> R) l : (forall x, In x l -> f x = h x) -> rsum f l = rsum h l.
Proof. intros H. unfold rsum. f_equal. apply map_ext_in. auto. Qed.
Lemma rsum_sub {A} (f h : A -> R) l : rsum (fun x => f x - h x)%R l = (rsum f l - rsum h l)%R.
Proof. unfold rsum. induction l as [|x l IH]; cbn [map fold_right]; [ring|]. rewrite IH. ring. Qed.
Lemma rsum_zero {A} (f : A -> R) l : (forall x, In x l -> f x = 0%R) -> rsum f l = 0%R.
Proof. unfold rsum. induction l as [|x l IH]; cbn [map fold_right]; intros H; [ring|]. rewrite H, IH; [ring| |left; auto]. intros; apply H; right; auto. Qed.
Lemma rsum_perm {A} (f : A -> R) l l' : Permutation l l' -> rsum f l = rsum f l'.
Proof. unfold rsum. induction 1; cbn [map fold_right]; lra. Qed.
Lemma rsum_app {A} (f : A -> R) l l' : rsum f (l ++ l') = (rsum f l + rsum f l')%R.
Proof. unfold rsum. induction l as [|x l IH]; cbn [map fold_right app]; [ring|]. rewrite IH. ring. Qed.
Lemma NoDup_app_intro' (l l' : list nat) : NoDup l -> NoDup l' -> (forall x, In x l -> In x l' -> False) -> NoDup (l ++ l').
Proof.
  induction l as [|a l IH]; intros A B H; cbn [app]; auto. inversion A; subst. constructor.
  - rewrite in_app_iff. intros [I|I]; [auto|]. apply (H a); [left|]; auto.
  - apply IH; auto. intros x I. apply H. right; auto.
Qed.
(** a sum whose terms vanish outside of a sublist *)
Lemma rsum_support (f : nat -> R) l T : NoDup l -> NoDup T -> (forall j, In j T -> In j l) ->
  (forall j, In j l -> ~ In j T -> f j = 0%R) -> rsum f l = rsum f T.
Proof.
  intros NL NT S Z.
  assert (P : Permutation l (T ++ filter (fun j => negb (existsb (Nat.eqb j) T)) l)).
  { apply NoDup_Permutation; auto.
    - apply NoDup_app_intro'; auto.
      + apply NoDup_filter; auto.
      + intros x A B. apply filter_In in B as [_ B]. apply negb_true_iff in B.
        rewrite (proj2 (existsb_exists _ _)) in B; [discriminate|]. exists x. split; auto. apply Nat.eqb_refl.
    - intros x. rewrite in_app_iff, filter_In. split; [|intros [I|[I _]]; auto].
      intros I. destruct (in_dec Nat.eq_dec x T) as [J|J]; [left; auto|right]. split; auto.
      apply negb_true_iff. destruct (existsb (Nat.eqb x) T) eqn:Q; auto.
      apply existsb_exists in Q as (y & Y & Q). apply Nat.eqb_eq in Q. subst. tauto. }
  rewrite (rsum_perm f P), rsum_app, (@rsum_zero _ f (filter _ _)); [ring|].
  intros x I. apply filter_In in I as [I B]. apply Z; auto. intros J. apply negb_true_iff in B.
  rewrite (proj2 (existsb_exists _ _)) in B; [discriminate|]. exists x. split; auto. apply Nat.eqb_refl.
Qed.
Lemma rsum_map {A B} (f : B -> R) (h : A -> B) l : rsum f (map h l) = rsum (fun x => f (h x)) l.
Proof. unfold rsum. rewrite map_map. reflexivity. Qed.

Section NetEuclProofs.
  Context {VP EP FP : Type}.
  Variables (D : nat) (pos : VP -> nat -> R).
  Implicit Types (m : mesh VP EP FP) (c : cfg) (g : graph VP EP FP).
  Notation dense m := (dense (abs m) (num_vertices m)).

  Lemma rset_ok n (a : rmatrix) i j x : i < n -> j < n ->
    rset n a i j x = Ok (fun i' j' => if (i' =? i) && (j' =? j) then x else a i' j').
  Proof. intros A B. unfold rset. rewrite (proj2 (Nat.ltb_lt _ _) A), (proj2 (Nat.ltb_lt _ _) B). reflexivity. Qed.

  Lemma euclidean_fold m at_ : wf m -> dense m -> payloads (abs m) at_ -> forall l a0,
    (forall e, In e l -> lv (abs m) e = true) ->
    exists a, foldM (euclidean_entry D pos m) l a0 = Ok a /\
      forall i j, (joined (abs m) l i j /\ a i j = distance D (pos (at_ i)) (pos (at_ j))) \/ (~ joined (abs m) l i j /\ a i j = a0 i j).
  Proof.
    intros Wm Dn P. destruct (wf_abs Wm) as [R W].
    induction l as [|e l IH]; intros a0 Hl; cbn [foldM].
    - exists a0. split; auto. intros i j. right. split; auto. intros (e & [] & _).
    - assert (L : lv (abs m) e = true) by (apply Hl; left; auto).
      unfold euclidean_entry at 1. rewrite (r_gorigin Wm L), (r_gtarget' Wm L). cbn [bind].
      pose proof (wf_og W e L) as V1. pose proof (wf_og W _ (wf_tw W e L)) as V2.
      pose proof (proj1 (Dn _) V1) as B1. pose proof (proj1 (Dn _) V2) as B2.
      destruct (r_vertex_live R _ V1) as (x & X & _ & PX). destruct (r_vertex_live R _ V2) as (y & Y & _ & PY).
      rewrite (P _ V1) in PX. rewrite (P _ V2) in PY. rewrite X, Y. cbn [bind].
      assert (QX : v_pay x = at_ (og (abs m) e)) by congruence.
      assert (QY : v_pay y = at_ (og (abs m) (tw (abs m) e))) by congruence.
      rewrite QX, QY. clear x y X Y PX PY QX QY.
      rewrite rset_ok by auto. cbn [bind]. rewrite rset_ok by auto. cbn [bind].
      set (u := og (abs m) e) in *. set (v := og (abs m) (tw (abs m) e)) in *.
      edestruct IH as (a & E & Ha). { intros x I. apply Hl. right; auto. }
      exists a. split; [exact E|]. intros i j. destruct (Ha i j) as [[J A]|[J A]].
      + left. split; auto. destruct J as (x & I & J). exists x. split; auto. right; auto.
      + destruct ((i =? v) && (j =? u)) eqn:Q1; [|destruct ((i =? u) && (j =? v)) eqn:Q2].
        * left. apply andb_prop in Q1 as [X Y]. apply Nat.eqb_eq in X, Y. subst i j.
          split; [exists e; split; [left; auto|]; right; auto|]. rewrite A. apply distance_sym.
        * left. apply andb_prop in Q2 as [X Y]. apply Nat.eqb_eq in X, Y. subst i j.
          split; auto. exists e. split; [left; auto|]. left. auto.
        * right. split; auto. intros (x & [<-|I] & K).
          -- apply andb_false_iff in Q1, Q2. rewrite !Nat.eqb_neq in Q1, Q2. subst u v.
             destruct K as [[<- <-]|[<- <-]]; intuition congruence.
          -- apply J. exists x. auto.
  Qed.

  Lemma euclidean_adj m at_ : wf m -> dense m -> payloads (abs m) at_ ->
    exists a, adjacency_matrix_euclidean D pos m = Ok a /\
      forall i j, (adjacent (abs m) i j /\ a i j = distance D (pos (at_ i)) (pos (at_ j))) \/ (~ adjacent (abs m) i j /\ a i j = 0%R).
  Proof.
    intros Wm Dn P. destruct (wf_abs Wm) as [R W]. unfold adjacency_matrix_euclidean.
    rewrite (proj2 (consecutive_dense Wm) Dn). cbn [assert].
    destruct (@euclidean_fold m at_ Wm Dn P (edge_ids m) (fun _ _ => 0%R)) as (a & E & H).
    { intros e. apply edge_ids_live; auto. }
    exists a. split; [exact E|].
    assert (K : forall i j, joined (abs m) (edge_ids m) i j <-> adjacent (abs m) i j).
    { intros i j. split.
      - intros (e & I & J). apply edge_ids_live in I; auto.
        assert (adjacent (abs m) (og (abs m) e) (og (abs m) (tw (abs m) e))) by (exists e; auto).
        destruct J as [[<- <-]|[<- <-]]; auto. apply adjacent_sym; auto.
      - intros (e & L & A & B). exists e. split; auto. apply edge_ids_live; auto. }
    intros i j. destruct (H i j) as [[A B]|[A B]]; rewrite K in A; auto.
  Qed.

  Lemma euclidean_adj_ok m at_ : wf m -> dense m -> payloads (abs m) at_ ->
    exists a, adjacency_matrix_euclidean D pos m = Ok a /\
      (forall i j, a i j = a j i) /\ (forall i, a i i = 0%R) /\
      (forall i j, adjacent (abs m) i j -> is_distance D (pos (at_ i)) (pos (at_ j)) (a i j)) /\
      (forall i j, ~ adjacent (abs m) i j -> a i j = 0%R).
  Proof.
    intros Wm Dn P. destruct (wf_abs Wm) as [R W]. destruct (euclidean_adj Wm Dn P) as (a & E & H). exists a. split; auto.
    repeat split.
    - intros i j. pose proof (adjacent_sym (u := i) (v := j) W). pose proof (adjacent_sym (u := j) (v := i) W).
      destruct (H i j) as [[A B]|[A B]], (H j i) as [[A' B']|[A' B']]; try tauto; rewrite B, B'; auto. apply distance_sym.
    - intros i. destruct (H i i) as [[A B]|[A B]]; auto. rewrite B. apply distance_refl.
    - destruct (H i j) as [[A B]|[A B]]; [rewrite B|tauto]. apply distance_ok.
    - destruct (H i j) as [[A B]|[A B]]; [rewrite B|tauto]. apply distance_ok.
    - intros i j N. destruct (H i j) as [[A B]|[A B]]; [tauto|auto].
  Qed.

  Lemma euclidean_adj_panics m : wf m -> ~ dense m -> adjacency_matrix_euclidean D pos m = Panic.
  Proof.
    intros Wm Dn. unfold adjacency_matrix_euclidean. destruct (has_consecutive_vertex_ids m) eqn:H; auto.
    apply consecutive_dense in H; auto. tauto.
  Qed.

  Lemma euclidean_laplacian_ok c m at_ : wf m -> dense m -> payloads (abs m) at_ ->
    exists a, laplacian_euclidean D pos c m = Ok a /\
      (forall i j, i <> j -> a i j = a j i /\
         (adjacent (abs m) i j -> is_distance D (pos (at_ i)) (pos (at_ j)) (- a i j)) /\
         (~ adjacent (abs m) i j -> a i j = 0%R)) /\
      (forall i l, i < num_vertices m -> outgoing (abs m) i l -> a i i = INR (length l)) /\
      (no_parallel (abs m) -> forall i l len, i < num_vertices m -> outgoing (abs m) i l ->
         (forall e, In e l -> is_distance D (pos (at_ i)) (pos (at_ (og (abs m) (tw (abs m) e)))) (len e)) ->
         rsum (a i) (seq 0 (num_vertices m)) = (INR (length l) - rsum len l)%R).
  Proof.
    intros Wm Dn P. destruct (wf_abs Wm) as [R W].
    destruct (degree_ok c Wm Dn) as (d & E1 & D1 & D2). destruct (euclidean_adj_ok Wm Dn P) as (a & E2 & A1 & A2 & A3 & A4).
    unfold laplacian_euclidean. rewrite E1, E2. cbn [bind]. eexists. split; [reflexivity|].
    assert (DK : forall i l, i < num_vertices m -> outgoing (abs m) i l -> IZR (d i i) = INR (length l)).
    { intros i l Hi (ND & OL). destruct (D1 i Hi) as (k & (l2 & N2 & <- & O2) & ->). rewrite <- INR_IZR_INZ. f_equal.
      apply Permutation_length, NoDup_Permutation; auto. intros x. rewrite OL, O2. tauto. }
    split; [|split].
    - intros i j N. cbn beta. rewrite !D2 by auto. split; [rewrite A1; auto|]. split.
      + intros J. replace (- (IZR 0 - a i j))%R with (a i j) by (cbn; ring). auto.
      + intros J. rewrite A4 by auto. cbn. ring.
    - intros i l Hi O. cbn beta. rewrite (DK i l Hi O), A2. ring.
    - intros NP i l len Hi O LN. rewrite rsum_sub. f_equal.
      + rewrite (@rsum_support (fun j => IZR (d i j)) _ [i]).
        * unfold rsum. cbn [map fold_right]. rewrite (DK i l Hi O). ring.
        * apply seq_NoDup.
        * repeat constructor. auto.
        * intros j [<-|[]]. apply in_seq. lia.
        * intros j _ N. rewrite D2; auto. intros ->. apply N. left; auto.
      + destruct O as (ND & OL). change (fun x : nat => a i x) with (a i).
        rewrite (@rsum_support (a i) _ (map (fun e => og (abs m) (tw (abs m) e)) l)).
        * rewrite rsum_map. apply rsum_ext. intros e I. apply (distance_unique (D := D) (p := pos (at_ i)) (q := pos (at_ (og (abs m) (tw (abs m) e))))); auto.
          apply A3. apply OL in I as [L OE]. exists e. auto.
        * apply seq_NoDup.
        * apply nodup_map_inj; auto. intros x y X Y Q. apply OL in X as [X1 X2], Y as [Y1 Y2]. apply NP; auto. congruence.
        * intros j J. apply in_map_iff in J as (e & <- & J). apply OL in J as [L _]. apply in_seq.
          pose proof (proj1 (Dn _) (wf_og W _ (wf_tw W e L))). lia.
        * intros j _ N. apply A4. intros (e & L & OE & T). apply N. apply in_map_iff. exists e. split; auto. apply OL. auto.
  Qed.
End NetEuclProofs.
