(** Proofs about the network matrices. *)
From Coq Require Import List Arith Lia ZArith Bool Permutation.
From Verif Require Import Base DVec DVecFacts Mesh MeshMore Spec Rep Cycle Traverse MeshSpec MeshProofs CheckProofs MeshFacts Topo TopoSpec TopoProofs.
Import ListNotations.
Set Implicit Arguments.
Unset Strict Implicit.

Section Net.
  Context {VP EP FP : Type}.
  Implicit Types (m : mesh VP EP FP) (c : cfg) (g : graph VP EP FP).

  Lemma vertex_ids_live m v : wf m -> (In v (vertex_ids m) <-> lvv (abs m) v = true).
  Proof. intros (A & B & C & W). apply in_vertex_ids; auto. Qed.
  Lemma edge_ids_live m v : wf m -> (In v (edge_ids m) <-> lv (abs m) v = true).
  Proof. intros (A & B & C & W). apply in_edge_ids; auto. Qed.
  Lemma face_ids_live m v : wf m -> (In v (face_ids m) <-> lvf (abs m) v = true).
  Proof. intros (A & B & C & W). apply in_face_ids; auto. Qed.
  Lemma vertex_ids_nodup m : wf m -> NoDup (vertex_ids m).
  Proof. intros (A & B & C & W). eapply iter_ids_nodup; eauto. Qed.
  Lemma edge_ids_nodup m : wf m -> NoDup (edge_ids m).
  Proof. intros (A & B & C & W). eapply iter_ids_nodup; eauto. Qed.
  Lemma face_ids_nodup m : wf m -> NoDup (face_ids m).
  Proof. intros (A & B & C & W). eapply iter_ids_nodup; eauto. Qed.
  Lemma num_vertices_ids m : wf m -> num_vertices m = length (vertex_ids m).
  Proof. intros (A & B & C & W). unfold num_vertices, vertex_ids. rewrite (len_iter B), map_length. cbn. lia. Qed.
  Lemma num_faces_ids m : wf m -> num_faces m = length (face_ids m).
  Proof. intros (A & B & C & W). unfold num_faces, face_ids. rewrite (len_iter C), map_length. cbn. lia. Qed.

  Notation dense m := (dense (abs m) (num_vertices m)).

  Lemma Forall2_in_l {A B} (P : A -> B -> Prop) l l' x : Forall2 P l l' -> In x l -> exists y, In y l' /\ P x y.
  Proof.
    induction 1 as [|a b l l' H F IH]; intros I; [destruct I|]. destruct I as [->|I]; [exists b; split; auto; left; auto|].
    destruct (IH I) as (y & J & Q). exists y. split; auto. right; auto.
  Qed.
  Lemma nodup_map_inj {A B} (f : A -> B) l : NoDup l -> (forall x y, In x l -> In y l -> f x = f y -> x = y) -> NoDup (map f l).
  Proof.
    induction l as [|a l IH]; intros ND H; cbn; [constructor|]. inversion ND; subst. constructor.
    - rewrite in_map_iff. intros (x & E & I). apply H in E; [subst; auto|right; auto|left; auto].
    - apply IH; auto. intros x y X Y. apply H; right; auto.
  Qed.

  Lemma filter_all {A} (p : A -> bool) l : (forall x, In x l -> p x = true) -> filter p l = l.
  Proof. induction l; cbn; intros H; auto. rewrite H by auto. f_equal. apply IHl. auto. Qed.

  Lemma filter_len {A} (p : A -> bool) l : length (filter p l) <= length l.
  Proof. induction l as [|x l IH]; cbn; auto. destruct (p x); cbn; lia. Qed.

  Lemma consecutive_dense m : wf m -> (has_consecutive_vertex_ids m = true <-> dense m).
  Proof.
    intros Wm. pose proof Wm as (A & B & C & W).
    unfold has_consecutive_vertex_ids, TopoSpec.dense. rewrite list_eqb_eq, (num_vertices_ids Wm). split.
    - intros E v. rewrite <- (vertex_ids_live v Wm), E at 1. rewrite in_seq. lia.
    - intros H. unfold vertex_ids at 1. rewrite (iter_ids B).
      set (n := length (vertex_ids m)) in *.
      assert (P : forall k a, (forall i, a <= i < a + k -> d_has (verts m) i = (i <? n)) ->
        filter (fun i => d_has (verts m) i) (seq a k) = filter (fun i => i <? n) (seq a k)).
      { induction k; intros a Q; cbn; auto. rewrite Q by lia. rewrite IHk; auto. intros; apply Q; lia. }
      rewrite P.
      2:{ intros i _. destruct (i <? n) eqn:Q.
          - apply Nat.ltb_lt, H in Q. exact Q.
          - destruct (d_has (verts m) i) eqn:D; auto. assert (X : lvv (abs m) i = true) by exact D.
            apply H in X. apply Nat.ltb_ge in Q. lia. }
      assert (LE : n <= length (slots (verts m))).
      { unfold n, vertex_ids. rewrite (iter_ids B). etransitivity; [apply filter_len|].
        rewrite seq_length. auto. }
      replace (length (slots (verts m))) with (n + (length (slots (verts m)) - n)) by lia.
      rewrite seq_app, filter_app, filter_all.
      2:{ intros x I. apply in_seq in I. apply Nat.ltb_lt. lia. }
      assert (Q : forall k a, n <= a -> filter (fun i => i <? n) (seq a k) = []).
      { induction k; intros a La; cbn [seq filter]; auto. rewrite (proj2 (Nat.ltb_ge a n)) by auto. apply IHk. lia. }
      rewrite Q by lia. apply app_nil_r.
  Qed.

  Lemma r_gorigin m e : wf m -> lv (abs m) e = true -> g_origin m e = Ok (og (abs m) e).
  Proof.
    intros Wm L. destruct (wf_abs Wm) as [R W]. unfold g_origin. rewrite (r_origin_id R), L. cbn [bind].
    rewrite (r_vchk R). rewrite (wf_og W e L). reflexivity.
  Qed.
  Lemma r_gtarget' m e : wf m -> lv (abs m) e = true -> g_target m e = Ok (og (abs m) (tw (abs m) e)).
  Proof.
    intros Wm L. destruct (wf_abs Wm) as [R W]. rewrite (r_gtarget R), L, (wf_nx W e L). cbn [andb].
    rewrite (wf_ognx W e L), (wf_og W _ (wf_tw W e L)). reflexivity.
  Qed.

  Lemma mset_ok n a i j x : i < n -> j < n ->
    mset n a i j x = Ok (fun i' j' => if (i' =? i) && (j' =? j) then x else a i' j').
  Proof. intros A B. unfold mset. rewrite (proj2 (Nat.ltb_lt _ _) A), (proj2 (Nat.ltb_lt _ _) B). reflexivity. Qed.

  (** an edge of [l] joins [i] and [j] *)
  Definition joined g (l : list nat) i j : Prop :=
    exists e, In e l /\ ((og g e = i /\ og g (tw g e) = j) \/ (og g e = j /\ og g (tw g e) = i)).

  Lemma adjacency_fold m : wf m -> dense m -> forall l a0,
    (forall e, In e l -> lv (abs m) e = true) ->
    exists a, foldM (fun a e =>
       let* i := g_origin m e in
       let* j := g_target m e in
       let* a := mset (num_vertices m) a i j 1%Z in
       mset (num_vertices m) a j i 1%Z) l a0 = Ok a /\
      forall i j, (joined (abs m) l i j /\ a i j = 1%Z) \/ (~ joined (abs m) l i j /\ a i j = a0 i j).
  Proof.
    intros Wm D. destruct (wf_abs Wm) as [R W].
    induction l as [|e l IH]; intros a0 Hl; cbn [foldM].
    - exists a0. split; auto. intros i j. right. split; auto. intros (e & [] & _).
    - assert (L : lv (abs m) e = true) by (apply Hl; left; auto).
      rewrite (r_gorigin Wm L), (r_gtarget' Wm L). cbn [bind].
      pose proof (proj1 (D _) (wf_og W e L)) as B1.
      pose proof (proj1 (D _) (wf_og W _ (wf_tw W e L))) as B2.
      rewrite mset_ok by auto. cbn [bind]. rewrite mset_ok by auto. cbn [bind].
      set (u := og (abs m) e) in *. set (v := og (abs m) (tw (abs m) e)) in *.
      edestruct IH as (a & E & Ha). { intros x I. apply Hl. right; auto. }
      exists a. split; [exact E|]. intros i j. destruct (Ha i j) as [[J A]|[J A]].
      + left. split; auto. destruct J as (x & I & J). exists x. split; auto. right; auto.
      + destruct ((i =? v) && (j =? u)) eqn:Q1; [|destruct ((i =? u) && (j =? v)) eqn:Q2].
        * left. apply andb_prop in Q1 as [X Y]. apply Nat.eqb_eq in X, Y. subst i j.
          split; auto. exists e. split; [left; auto|]. right. auto.
        * left. apply andb_prop in Q2 as [X Y]. apply Nat.eqb_eq in X, Y. subst i j.
          split; auto. exists e. split; [left; auto|]. left. auto.
        * right. split; auto. intros (x & [<-|I] & K).
          -- apply andb_false_iff in Q1, Q2. rewrite !Nat.eqb_neq in Q1, Q2. subst u v.
             destruct K as [[<- <-]|[<- <-]]; intuition congruence.
          -- apply J. exists x. auto.
  Qed.

  Lemma adjacency_ok m : wf m -> dense m ->
    exists a, adjacency_matrix m = Ok a /\
      forall i j, a i j = a j i /\ ((adjacent (abs m) i j /\ a i j = 1%Z) \/ (~ adjacent (abs m) i j /\ a i j = 0%Z)).
  Proof.
    intros Wm D. destruct (wf_abs Wm) as [R W]. unfold adjacency_matrix.
    rewrite (proj2 (consecutive_dense Wm) D). cbn [assert].
    destruct (@adjacency_fold m Wm D (edge_ids m) zeros) as (a & E & H).
    { intros e. apply edge_ids_live; auto. }
    exists a. split; [exact E|].
    assert (K : forall i j, joined (abs m) (edge_ids m) i j <-> adjacent (abs m) i j).
    { intros i j. split.
      - intros (e & I & J). apply edge_ids_live in I; auto.
        assert (adjacent (abs m) (og (abs m) e) (og (abs m) (tw (abs m) e))) by (exists e; auto).
        destruct J as [[<- <-]|[<- <-]]; auto. apply adjacent_sym; auto.
      - intros (e & L & A & B). exists e. split; auto. apply edge_ids_live; auto. }
    assert (V : forall i j, (adjacent (abs m) i j /\ a i j = 1%Z) \/ (~ adjacent (abs m) i j /\ a i j = 0%Z)).
    { intros i j. destruct (H i j) as [[A B]|[A B]]; rewrite K in A; auto. }
    intros i j. split; auto. pose proof (adjacent_sym (u := i) (v := j) W). pose proof (adjacent_sym (u := j) (v := i) W).
    destruct (V i j) as [[A B]|[A B]], (V j i) as [[A' B']|[A' B']]; try tauto; congruence.
  Qed.

  Lemma adjacency_panics m : wf m -> ~ dense m -> adjacency_matrix m = Panic.
  Proof.
    intros Wm D. unfold adjacency_matrix. destruct (has_consecutive_vertex_ids m) eqn:H; auto.
    apply consecutive_dense in H; auto. tauto.
  Qed.

  Lemma diag_fold n : forall (ds : list (nat * nat)) a0,
    (forall p, In p ds -> fst p < n) -> NoDup (map fst ds) ->
    exists a, foldM (fun a (p : nat * nat) => mset n a (fst p) (fst p) (Z.of_nat (snd p))) ds a0 = Ok a /\
      (forall v d, In (v, d) ds -> a v v = Z.of_nat d) /\
      (forall i j, i <> j \/ ~ In i (map fst ds) -> a i j = a0 i j).
  Proof.
    induction ds as [|[v d] ds IH]; intros a0 Hl ND; cbn [foldM].
    - exists a0. split; auto. split; [intros ? ? []|auto].
    - cbn in ND. inversion ND; subst. assert (v < n) by (apply (Hl (v, d)); left; auto).
      cbn [fst snd]. rewrite mset_ok by auto. cbn [bind].
      edestruct IH as (a & E & H3 & H4); [intros p I; apply Hl; right; auto|auto|].
      exists a. split; [exact E|]. split.
      + intros v' d' [Q|I]; [injection Q as <- <-|auto]. rewrite H4 by auto. cbn. rewrite Nat.eqb_refl. auto.
      + cbn. intros i j Q. rewrite H4 by tauto.
        destruct ((i =? v) && (j =? v)) eqn:Z; auto. apply andb_prop in Z as [X Y]. apply Nat.eqb_eq in X, Y. subst.
        tauto.
  Qed.

  Lemma mapM_inv2 {A B} (f : A -> res B) (P : A -> B -> Prop) l :
    (forall x, In x l -> exists y, f x = Ok y /\ P x y) -> exists ys, mapM f l = Ok ys /\ Forall2 P l ys.
  Proof.
    induction l as [|x l IH]; intros H; cbn [mapM]; [exists []; auto|].
    destruct (H x (or_introl eq_refl)) as (y & E & Q). rewrite E. cbn [bind].
    destruct IH as (ys & E2 & F); [intros; apply H; right; auto|]. rewrite E2. cbn [bind].
    exists (y :: ys). auto.
  Qed.

  Lemma degree_ok c m : wf m -> dense m ->
    exists d, degree_matrix c m = Ok d /\
      (forall i, i < num_vertices m -> exists k, out_number (abs m) i k /\ d i i = Z.of_nat k) /\
      (forall i j, i <> j -> d i j = 0%Z).
  Proof.
    intros Wm D. unfold degree_matrix.
    destruct (@mapM_inv2 _ _ (fun v => let* d := degree c m v in Ok (v, d))
      (fun v p => fst p = v /\ out_number (abs m) v (snd p)) (vertex_ids m)) as (ds & E & F).
    { intros v I. apply vertex_ids_live in I; auto.
      destruct (vertex_wheel c Wm I) as (l & _ & ND & OL & _ & DG & _). rewrite DG. cbn [bind].
      eexists. split; [reflexivity|]. cbn. split; auto. exists l. auto. }
    assert (M : map fst ds = vertex_ids m).
    { clear E. induction F as [|x y l l' [H _] F IH]; cbn; congruence. }
    rewrite E. cbn [bind].
    destruct (@diag_fold (num_vertices m) ds zeros) as (a & E2 & H1 & H2).
    { intros p I. apply D. apply vertex_ids_live; auto. rewrite <- M. apply in_map; auto. }
    { rewrite M. apply vertex_ids_nodup; auto. }
    exists a. split; [exact E2|]. split.
    - intros i Hi. apply D in Hi. apply vertex_ids_live in Hi; auto.
      destruct (Forall2_in_l F Hi) as (p & I & P & Q). exists (snd p). split; auto. apply H1. subst i. destruct p; auto.
    - intros i j N. rewrite H2 by auto. reflexivity.
  Qed.

  Lemma sum_add l (a b : nat -> Z) :
    (fold_right Z.add 0 (map (fun j => a j - b j) l) = fold_right Z.add 0 (map a l) - fold_right Z.add 0 (map b l))%Z.
  Proof. induction l; cbn [map fold_right]; lia. Qed.
  Lemma sum_ext l (a b : nat -> Z) : (forall j, In j l -> a j = b j) -> fold_right Z.add 0%Z (map a l) = fold_right Z.add 0%Z (map b l).
  Proof. intros H. f_equal. apply map_ext_in. auto. Qed.
  Lemma sum_single l (a : nat -> Z) i : NoDup l -> In i l -> (forall j, In j l -> j <> i -> a j = 0%Z) ->
    fold_right Z.add 0%Z (map a l) = a i.
  Proof.
    induction l as [|x l IH]; intros ND I H; [destruct I|]. inversion ND; subst. cbn [map fold_right].
    destruct (Nat.eq_dec x i) as [->|N].
    - assert (Z : fold_right Z.add 0%Z (map a l) = 0%Z).
      { clear IH ND I H3. induction l as [|y l IH]; cbn [map fold_right]; auto.
        rewrite H; [|right; left; auto|intros ->; apply H2; left; auto].
        rewrite IH; [auto|intros K; apply H2; right; auto|]. intros j J N. apply H; auto. destruct J as [->|J]; [left|right; right]; auto. }
      lia.
    - rewrite H by (auto; left; auto). destruct I as [->|I]; [tauto|]. rewrite IH; auto.
      intros j J; apply H; right; auto.
  Qed.
  Lemma sum_indicator l (T : list nat) (a : nat -> Z) : NoDup l -> NoDup T -> (forall j, In j T -> In j l) ->
    (forall j, In j l -> (In j T /\ a j = 1%Z) \/ (~ In j T /\ a j = 0%Z)) ->
    fold_right Z.add 0%Z (map a l) = Z.of_nat (length T).
  Proof.
    revert T. induction l as [|x l IH]; intros T NL NT S H.
    - destruct T as [|t T]; auto. destruct (S t); left; auto.
    - inversion NL; subst. cbn [map fold_right]. destruct (H x (or_introl eq_refl)) as [[I ->]|[I ->]].
      + apply in_split in I as (t1 & t2 & ->).
        assert (P : Permutation (x :: t1 ++ t2) (t1 ++ x :: t2)) by apply Permutation_middle.
        pose proof (Permutation_NoDup (Permutation_sym P) NT) as ND. inversion ND; subst.
        rewrite (IH (t1 ++ t2)); auto.
        * rewrite !app_length. cbn [length]. lia.
        * intros j J. assert (K : In j (x :: l)). { apply S. eapply Permutation_in; [exact P|]. right; auto. }
          destruct K as [->|]; auto. tauto.
        * intros j J. assert (x <> j) by (intros ->; tauto).
          destruct (H j (or_intror J)) as [[A B]|[A B]]; [left|right]; split; auto.
          -- eapply Permutation_in in A; [|exact (Permutation_sym P)]. destruct A; [tauto|auto].
          -- intros K. apply A. eapply Permutation_in; [exact P|]. right; auto.
      + rewrite (IH T); auto.
        * intros j J. destruct (S j J) as [->|]; auto. tauto.
        * intros j J. apply H. right; auto.
  Qed.

  Lemma laplacian_ok c m : wf m -> dense m ->
    exists a, laplacian c m = Ok a /\
      (forall i j, i < num_vertices m -> j < num_vertices m -> i <> j -> a i j = a j i /\
         ((adjacent (abs m) i j /\ a i j = (-1)%Z) \/ (~ adjacent (abs m) i j /\ a i j = 0%Z))) /\
      (no_parallel (abs m) -> no_self_loop (abs m) -> forall i, i < num_vertices m ->
         (exists k, out_number (abs m) i k /\ a i i = Z.of_nat k) /\ row_sum (num_vertices m) a i = 0%Z).
  Proof.
    intros Wm D. destruct (wf_abs Wm) as [R W].
    destruct (degree_ok c Wm D) as (d & E1 & D1 & D2). destruct (adjacency_ok Wm D) as (a & E2 & A).
    unfold laplacian. rewrite E1, E2. cbn [bind]. eexists. split; [reflexivity|]. split.
    - intros i j _ _ N. cbn beta. rewrite !D2 by auto. destruct (A i j) as [S [[X Y]|[X Y]]]; rewrite <- S, Y; split; auto.
    - intros NP NS i Hi. destruct (D1 i Hi) as (k & (l & ND & <- & OL) & DK). split.
      + exists (length l). split; [exists l; auto|]. cbn beta. destruct (A i i) as [_ [[X Y]|[X Y]]].
        * exfalso. destruct X as (e & L & <- & Q). apply (NS e L Q).
        * rewrite DK, Y. lia.
      + unfold row_sum. rewrite sum_add. rewrite (@sum_single _ (d i) i); [|apply seq_NoDup|apply in_seq; lia|].
        2:{ intros j _ N. apply D2. auto. }
        rewrite (@sum_indicator _ (map (fun e => og (abs m) (tw (abs m) e)) l)).
        * rewrite map_length, DK. lia.
        * apply seq_NoDup.
        * apply nodup_map_inj; auto. intros x y X Y Q. apply OL in X as [X1 X2], Y as [Y1 Y2].
          apply NP; auto. congruence.
        * intros j J. apply in_map_iff in J as (e & <- & J). apply OL in J as [L O]. apply in_seq.
          pose proof (proj1 (D _) (wf_og W _ (wf_tw W e L))). lia.
        * intros j _. assert (K : In j (map (fun e => og (abs m) (tw (abs m) e)) l) <-> adjacent (abs m) i j).
          { rewrite in_map_iff. split.
            - intros (e & <- & J). apply OL in J as [L O]. exists e. auto.
            - intros (e & L & O & T). exists e. split; auto. apply OL. auto. }
          rewrite K. destruct (A i j) as [_ X]. exact X.
  Qed.
End Net.
