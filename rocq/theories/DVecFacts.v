(** Invariants of the arena. *)
From Coq Require Import List Arith Lia Bool Permutation.
From Verif Require Import Base DVec.
Import ListNotations.
Set Implicit Arguments.

Section Facts.
  Context {A : Type}.
  Variable cap : nat.
  Implicit Types d : dvec A.

  (** The value stored at an index, if live. *)
  Definition look d (i : nat) : option A :=
    match nth_error (slots d) i with Some (Some (_, v)) => Some v | _ => None end.

  (** [dv_ok d pend]: the dead slots are exactly the free ones and the allocated-but-unset ones
      ([pend]), without repetition; live slots store their own index. *)
  Record dv_ok (d : dvec A) (pend : list nat) : Prop := {
    ok_nodup : NoDup (free d ++ pend);
    ok_dead : forall i, nth_error (slots d) i = Some None <-> In i (free d ++ pend);
    ok_id : forall i k v, nth_error (slots d) i = Some (Some (k, v)) -> k = i
  }.

  Lemma get_look d i : d_get d i = unwrap (look d i).
  Proof. unfold d_get, look. destruct (nth_error _ _) as [[[? ?]|]|]; reflexivity. Qed.

  Lemma has_look d i : d_has d i = true <-> look d i <> None.
  Proof. unfold d_has, look. destruct (nth_error _ _) as [[[? ?]|]|]; split; congruence. Qed.

  Lemma has_look_b d i : d_has d i = match look d i with Some _ => true | None => false end.
  Proof. unfold d_has, look. destruct (nth_error _ _) as [[[? ?]|]|]; reflexivity. Qed.

  Lemma id_look d pend i : dv_ok d pend ->
    d_id d i = match look d i with Some _ => Ok i | None => Panic end.
  Proof.
    intros H. unfold d_id, look. destruct (nth_error _ _) as [[[? ?]|]|] eqn:E; auto.
    apply (ok_id H) in E. congruence.
  Qed.

  Lemma look_lt d i v : look d i = Some v -> i < length (slots d).
  Proof.
    unfold look. intros H. apply nth_error_Some. intros E. rewrite E in H. discriminate.
  Qed.

  Lemma new_ok : dv_ok (@d_new A) [].
  Proof.
    split; simpl.
    - constructor.
    - intros. destruct i; simpl; split; intros; try discriminate; tauto.
    - intros. destruct i; discriminate.
  Qed.

  Lemma nth_error_snoc (B : Type) (l : list B) x i :
    nth_error (l ++ [x]) i =
    if i =? length l then Some x else nth_error l i.
  Proof.
    destruct (Nat.eqb_spec i (length l)).
    - subst. rewrite nth_error_app2, Nat.sub_diag; auto.
    - destruct (Nat.lt_ge_cases i (length l)).
      + apply nth_error_app1; auto.
      + rewrite nth_error_app2 by lia. destruct (i - length l) eqn:E; [lia|].
        simpl. destruct n0; symmetry; apply nth_error_None; lia.
  Qed.

  Lemma NoDup_app_comm (B : Type) (l1 l2 : list B) : NoDup (l1 ++ l2) -> NoDup (l2 ++ l1).
  Proof. intros. eapply Permutation_NoDup; [apply Permutation_app_comm|auto]. Qed.

  Lemma upd_snoc (B : Type) (l : list B) x y : upd (l ++ [x]) (length l) y = l ++ [y].
  Proof. induction l; simpl; congruence. Qed.

  Lemma alloc_ok d pend d' i :
    dv_ok d pend -> d_alloc cap d = Ok (d', i) ->
    dv_ok d' (i :: pend) /\ look d i = None /\ ~ In i pend /\ (forall j, look d' j = look d j) /\
    i < length (slots d') /\ length (slots d) <= length (slots d') /\
    d_iter d' = d_iter d.
  Proof.
    intros [ND DD ID] H. unfold d_alloc in H. destruct (free d) as [|k fr] eqn:F.
    - inv_ok H. injection H as <- <-. simpl in *.
      assert (L : ~ In (length (slots d)) pend).
      { intros I. apply DD in I.
        assert (length (slots d) < length (slots d)) by (apply nth_error_Some; congruence). lia. }
      repeat split; simpl; auto.
      + constructor; auto.
      + rewrite nth_error_snoc. destruct (Nat.eqb_spec i (length (slots d))); intros.
        * left; auto.
        * right. apply DD; auto.
      + rewrite nth_error_snoc. intros [<-|I]; [rewrite Nat.eqb_refl; auto|].
        destruct (Nat.eqb_spec i (length (slots d))); auto. apply DD; auto.
      + intros i k v. rewrite nth_error_snoc. destruct (Nat.eqb_spec i (length (slots d))); intros; [discriminate|].
        eapply ID; eauto.
      + unfold look. rewrite (proj2 (nth_error_None _ _)); auto.
      + intros. unfold look. simpl. rewrite nth_error_snoc.
        destruct (Nat.eqb_spec j (length (slots d))); auto. subst.
        rewrite (proj2 (nth_error_None _ _)); auto.
      + rewrite app_length. simpl. lia.
      + rewrite app_length. lia.
      + unfold d_iter. simpl. rewrite flat_map_app. simpl. rewrite app_nil_r. reflexivity.
    - injection H as <- <-. simpl in *.
      assert (NF : ~ In k (fr ++ pend)) by (inversion ND; auto).
      assert (nth_error (slots d) k = Some None) by (apply DD; left; auto).
      repeat split; simpl; auto.
      + apply NoDup_app_comm. simpl. constructor.
        * rewrite in_app_iff in *. tauto.
        * apply NoDup_app_comm. inversion ND; auto.
      + intros. apply DD in H0. rewrite in_app_iff in *. simpl in *. tauto.
      + intros HI. apply DD. simpl. rewrite in_app_iff in *. simpl in *. tauto.
      + unfold look. rewrite H. reflexivity.
      + rewrite in_app_iff in NF. tauto.
      + apply nth_error_Some. congruence.
  Qed.

  Lemma set_ok d p1 i p2 v d' :
    dv_ok d (p1 ++ i :: p2) -> d_set cap d i v = Ok d' ->
    dv_ok d' (p1 ++ p2) /\ i <> cap /\ length (slots d') = length (slots d) /\
    free d' = free d /\
    (forall j, look d' j = if j =? i then Some v else look d j).
  Proof.
    intros [ND DD ID] H. unfold d_set in H.
    destruct (nth_error (slots d) i) as [[?|]|] eqn:E; try discriminate.
    inv_ok H. injection H as <-. simpl.
    assert (NI : ~ In i (free d ++ p1 ++ p2)).
    { rewrite app_assoc in *. apply NoDup_remove_2 in ND. auto. }
    assert (L : i < length (slots d)) by (apply nth_error_Some; congruence).
    repeat split; simpl.
    - rewrite app_assoc in *. apply NoDup_remove_1 in ND. auto.
    - intros H. destruct (Nat.eq_dec i i0).
      + subst. rewrite nth_error_upd_eq in H by auto. discriminate.
      + rewrite nth_error_upd_ne in H by auto. apply DD in H.
        rewrite !in_app_iff in *. simpl in H. destruct H as [|[|[|]]]; auto. congruence.
    - intros H. destruct (Nat.eq_dec i i0); [subst; contradiction|].
      rewrite nth_error_upd_ne by auto. apply DD. rewrite !in_app_iff in *. simpl. tauto.
    - intros j k w H. destruct (Nat.eq_dec i j).
      + subst. rewrite nth_error_upd_eq in H by auto. congruence.
      + rewrite nth_error_upd_ne in H by auto. eapply ID; eauto.
    - destruct (Nat.eqb_spec i cap); auto; discriminate.
    - apply upd_length.
    - intros j. unfold look. simpl. destruct (Nat.eqb_spec j i).
      + subst. rewrite nth_error_upd_eq; auto.
      + rewrite nth_error_upd_ne; auto.
  Qed.

  Lemma push_ok d pend v d' i :
    dv_ok d pend -> d_push cap d v = Ok (d', i) ->
    dv_ok d' pend /\ i <> cap /\ look d i = None /\ ~ In i pend /\
    (forall j, look d' j = if j =? i then Some v else look d j) /\
    length (slots d) <= length (slots d').
  Proof.
    intros OK H. unfold d_push in H.
    assert (d_alloc cap d = Ok (match free d with [] => mkD (slots d ++ [None]) [] | _ :: fr => mkD (slots d) fr end, i) /\
            d_set cap (match free d with [] => mkD (slots d ++ [None]) [] | _ :: fr => mkD (slots d) fr end) i v = Ok d').
    { unfold d_alloc, d_set. destruct (free d) eqn:F.
      - inv_ok H. inv_ok H. injection H as <- <-. rewrite H0. simpl. split; auto.
        rewrite nth_error_snoc, Nat.eqb_refl, H1. simpl. repeat f_equal.
        apply upd_snoc.
      - inv_ok H. destruct (Nat.ltb_spec n (length (slots d))); [|discriminate].
        injection H as <- <-. simpl. split; auto.
        assert (nth_error (slots d) n = Some None).
        { apply (ok_dead OK). rewrite F. left; auto. }
        rewrite H, H0. reflexivity. }
    destruct H0 as [H1 H2].
    destruct (alloc_ok OK H1) as (OK1 & L & NI & LL & _ & C & _).
    destruct (@set_ok _ [] i pend v d' OK1 H2) as (OK2 & NC & C2 & _ & LL2).
    repeat (split; auto).
    - intros. rewrite LL2, LL. reflexivity.
    - lia.
  Qed.

  Lemma update_ok d pend i f d' :
    dv_ok d pend -> d_update d i f = Ok d' ->
    dv_ok d' pend /\ length (slots d') = length (slots d) /\ free d' = free d /\
    exists v, look d i = Some v /\
    (forall j, look d' j = if j =? i then Some (f v) else look d j).
  Proof.
    intros [ND DD ID] H. unfold d_update in H.
    destruct (nth_error (slots d) i) as [[[k v]|]|] eqn:E; try discriminate.
    injection H as <-. simpl.
    assert (L : i < length (slots d)) by (apply nth_error_Some; congruence).
    repeat split; simpl; auto using upd_length.
    - intros H. destruct (Nat.eq_dec i i0).
      + subst. rewrite nth_error_upd_eq in H by auto. discriminate.
      + rewrite nth_error_upd_ne in H by auto. apply DD; auto.
    - intros H. apply DD in H. destruct (Nat.eq_dec i i0); [congruence|].
      rewrite nth_error_upd_ne by auto. auto.
    - intros j k' w H. destruct (Nat.eq_dec i j).
      + subst. rewrite nth_error_upd_eq in H by auto. injection H as <- <-. eapply ID; eauto.
      + rewrite nth_error_upd_ne in H by auto. eapply ID; eauto.
    - exists v. unfold look at 1. rewrite E. split; auto.
      intros j. unfold look. simpl. destruct (Nat.eqb_spec j i).
      + subst. rewrite nth_error_upd_eq; auto.
      + rewrite nth_error_upd_ne; auto.
  Qed.

  Lemma update_total d i f v : look d i = Some v -> exists d', d_update d i f = Ok d'.
  Proof.
    unfold look, d_update. destruct (nth_error _ _) as [[[? ?]|]|]; intros; try discriminate. eauto.
  Qed.

  Lemma delete_ok d pend i d' :
    dv_ok d pend -> d_delete d i = Ok d' ->
    dv_ok d' pend /\ length (slots d') = length (slots d) /\ free d' = i :: free d /\
    look d i <> None /\
    (forall j, look d' j = if j =? i then None else look d j).
  Proof.
    intros [ND DD ID] H. unfold d_delete in H.
    destruct (nth_error (slots d) i) as [[[k v]|]|] eqn:E; try discriminate.
    injection H as <-. simpl.
    assert (L : i < length (slots d)) by (apply nth_error_Some; congruence).
    assert (NI : ~ In i (free d ++ pend)) by (intros C; apply DD in C; congruence).
    repeat split; simpl; auto using upd_length.
    - constructor; auto.
    - intros H. destruct (Nat.eq_dec i i0); auto.
      rewrite nth_error_upd_ne in H by auto. right. apply DD; auto.
    - intros [<-|H]; [apply nth_error_upd_eq; auto|]. 
      destruct (Nat.eq_dec i i0); [subst; apply nth_error_upd_eq; auto|].
      rewrite nth_error_upd_ne by auto. apply DD; auto.
    - intros j k' w H. destruct (Nat.eq_dec i j).
      + subst. rewrite nth_error_upd_eq in H by auto. discriminate.
      + rewrite nth_error_upd_ne in H by auto. eapply ID; eauto.
    - unfold look. rewrite E. discriminate.
    - intros j. unfold look. simpl. destruct (Nat.eqb_spec j i).
      + subst. rewrite nth_error_upd_eq; auto.
      + rewrite nth_error_upd_ne; auto.
  Qed.

  Lemma iter_look d pend : dv_ok d pend ->
    forall i v, In (i, v) (d_iter d) <-> look d i = Some v.
  Proof.
    intros OK i v. unfold d_iter, look. rewrite in_flat_map. split.
    - intros (s & Hs & Hi). destruct s as [[k w]|]; simpl in Hi; [|tauto].
      destruct Hi as [Hi|[]]. injection Hi as -> ->.
      apply In_nth_error in Hs as [j Hj]. pose proof (ok_id OK _ Hj); subst. rewrite Hj. auto.
    - intros H. destruct (nth_error (slots d) i) as [[[k w]|]|] eqn:E; try discriminate.
      injection H as ->. exists (Some (k, v)). split; [eapply nth_error_In; eauto|].
      pose proof (ok_id OK _ E); subst. left; auto.
  Qed.

  (** Ids in iteration order are strictly increasing. *)
  Lemma iter_ids d pend : dv_ok d pend ->
    map fst (d_iter d) = filter (fun i => d_has d i) (seq 0 (length (slots d))).
  Proof.
    intros OK. pose proof (ok_id OK) as ID. unfold d_iter, d_has. clear OK.
    assert (G : forall (l : list (option (nat * A))) pre,
      slots d = pre ++ l ->
      map fst (flat_map (fun s => match s with Some p => [p] | None => [] end) l) =
      filter (fun i => match nth_error (slots d) i with Some (Some _) => true | _ => false end)
        (seq (length pre) (length l))).
    { induction l as [|s l IH]; intros pre E; simpl; auto.
      assert (N : nth_error (slots d) (length pre) = Some s).
      { rewrite E, nth_error_app2, Nat.sub_diag; auto. }
      rewrite map_app, (IH (pre ++ [s])).
      2:{ rewrite <- app_assoc. auto. }
      rewrite N, app_length, Nat.add_1_r. destruct s as [[k v]|]; simpl; auto.
      rewrite (ID _ _ _ N). reflexivity. }
    apply (G (slots d) []). reflexivity.
  Qed.

  Lemma iter_ids_nodup d pend : dv_ok d pend -> NoDup (map fst (d_iter d)).
  Proof. intros. rewrite iter_ids with (pend := pend) by auto. apply NoDup_filter, seq_NoDup. Qed.

  Lemma filter_split_length (B : Type) (p : B -> bool) l :
    length (filter p l) + length (filter (fun x => negb (p x)) l) = length l.
  Proof. induction l as [|x l IH]; simpl; auto. destruct (p x); simpl; lia. Qed.

  Lemma len_iter d pend : dv_ok d pend -> d_len d = length (d_iter d) + length pend.
  Proof.
    intros OK. unfold d_len.
    assert (L : length (d_iter d) + length (filter (fun i => negb (d_has d i)) (seq 0 (length (slots d)))) = length (slots d)).
    { rewrite <- (map_length fst), (iter_ids OK). rewrite <- (seq_length (length (slots d)) 0) at 3.
      apply filter_split_length. }
    assert (P : length (filter (fun i => negb (d_has d i)) (seq 0 (length (slots d)))) = length (free d ++ pend)).
    { apply Permutation_length, NoDup_Permutation.
      - apply NoDup_filter, seq_NoDup.
      - apply (ok_nodup OK).
      - intros i. rewrite filter_In, in_seq, <- (ok_dead OK). unfold d_has.
        destruct (nth_error (slots d) i) as [[p|]|] eqn:E; simpl; split; intros H;
          try (destruct H; discriminate); try discriminate; auto.
        + assert (i < length (slots d)) by (apply nth_error_Some; congruence). split; [lia|auto].
        + apply nth_error_None in E. lia. }
    rewrite app_length in P. lia.
  Qed.
End Facts.
