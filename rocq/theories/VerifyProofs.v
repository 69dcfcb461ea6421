(** What the self-checks of [Triangulation] check. *)
From Coq Require Import List Arith ZArith Lia Bool Permutation QArith Qabs Lqa.
From Verif Require Import Base DVec Mesh TriSpec Tess TessProofs Buffer BufferSpec VerifySpec BufferProofs.
Import ListNotations.
Set Implicit Arguments.
Unset Strict Implicit.
Local Open Scope nat_scope.

Lemma foldM_unit A (f : A -> res unit) l : foldM (fun _ i => f i) l tt = Ok tt <-> Forall (fun i => f i = Ok tt) l.
Proof.
  induction l as [|a l IH]; cbn; [split; auto|]. destruct (f a) as [[]| |] eqn:E; cbn.
  - rewrite IH. split; [intros; constructor; auto|]. intros H. inversion H; auto.
  - split; [discriminate|]. intros H. inversion H; congruence.
  - split; [discriminate|]. intros H. inversion H; congruence.
Qed.
Lemma b_len_after pre T : b_len (after pre T) = Ok (length T).
Proof.
  unfold b_len, after. cbn [b_idx b_start]. rewrite app_length, flatten_length.
  replace (length pre + 3 * length T - length pre) with (length T * 3) by lia.
  rewrite Nat.mod_mul, Nat.div_mul by lia. reflexivity.
Qed.
Lemma b_triangle_after pre T i t : nth_error T i = Some t -> b_triangle (after pre T) i = Ok t.
Proof.
  destruct t as [[a b] c]. intros H. destruct (slot_get pre H) as (A & B & C).
  unfold b_triangle, after. cbn [b_idx b_start]. rewrite A. cbn [bind]. rewrite B. cbn [bind]. rewrite C. reflexivity.
Qed.

Section Verify.
  Variables (P : Type) (hm : nat -> option P).

  Lemma forall_seq (Q : tri3 -> Prop) (R : nat -> Prop) T s : (forall i t, nth_error T i = Some t -> (R i <-> Q t)) ->
    (Forall R (seq s (length T - s)) <-> Forall Q (skipn s T)).
  Proof.
    intros H. rewrite !Forall_forall. split.
    - intros F t I. apply In_nth_error in I as [k K].
      assert (K' : nth_error T (s + k) = Some t).
      { clear -K. revert s K. induction T as [|x T IH]; intros [|s] K; cbn in *; auto; destruct k; discriminate. }
      apply (H _ _ K'). apply F. apply in_seq. assert (s + k < length T) by (apply nth_error_Some; congruence). lia.
    - intros F i I. apply in_seq in I. destruct (nth_error T i) as [t|] eqn:E; [|apply nth_error_None in E; lia].
      apply (H _ _ E). apply F. apply nth_error_In with (i - s).
      clear -E I. assert (L : s <= i) by lia. clear I. revert s i E L. induction T as [|x T IH]; intros [|s] i E L; cbn [skipn].
      + rewrite Nat.sub_0_r. auto.
      + destruct i; discriminate.
      + rewrite Nat.sub_0_r. auto.
      + destruct i as [|i]; [lia|]. cbn [Nat.sub]. apply IH; auto. lia.
  Qed.

  Variable negative : P -> P -> P -> bool.
  Lemma non_degenerate_iff pre T :
    verify_non_degenerate hm negative (after pre T) = Ok tt <-> Forall (sound hm negative) (skipn (length pre) T).
  Proof.
    unfold verify_non_degenerate. rewrite b_len_after. cbn [bind b_start after]. rewrite foldM_unit.
    apply forall_seq. intros i t H. rewrite (b_triangle_after pre H). cbn [bind]. destruct t as [[a b] c].
    unfold sound, corners. destruct (hm a) as [p|]; cbn; [|split; [discriminate|intros (? & ? & ? & (? & _) & _); discriminate]].
    destruct (hm b) as [q|]; cbn; [|split; [discriminate|intros (? & ? & ? & (? & ? & _) & _); discriminate]].
    destruct (hm c) as [r|]; cbn; [|split; [discriminate|intros (? & ? & ? & (? & ? & ?) & _); discriminate]].
    unfold assert. destruct (negative p q r) eqn:N; cbn; split; auto; try discriminate.
    - intros (p' & q' & r' & (E1 & E2 & E3) & N'). congruence.
    - intros _. exists p, q, r. auto.
  Qed.

  Variable dist : P -> P -> Q.
  Lemma skipn_nth A (T : list A) i t : nth_error T i = Some t -> skipn i T = t :: skipn (S i) T.
  Proof. revert i. induction T as [|x T IH]; intros [|i] H; try discriminate; [injection H as ->; auto|]. apply IH. auto. Qed.
  Definition weigh t (acc : Q) (i : nat) : res Q :=
    let* x := b_triangle t i in
    match x with (a, b, c) => let* p := unwrap (hm a) in let* q := unwrap (hm b) in let* r := unwrap (hm c) in
      Ok (acc + (dist q p + dist r q + dist p r))%Q end.
  Lemma weight_step pre T : known hm T -> forall k s acc, s + k = length T ->
    exists w w', foldM (weigh (after pre T)) (seq s k) acc = Ok w' /\ (w' == acc + w)%Q /\ perimeters hm dist (skipn s T) w.
  Proof.
    intros KN. induction k as [|k IH]; intros s acc E.
    - exists 0%Q, acc. split; auto. split; [ring|]. rewrite skipn_all2 by lia. cbn. reflexivity.
    - destruct (nth_error T s) as [t|] eqn:N; [|apply nth_error_None in N; lia].
      cbn [seq foldM]; unfold weigh at 1; rewrite (b_triangle_after pre N). cbn [bind]. destruct t as [[a b] c].
      pose proof (proj1 (Forall_forall _ _) KN _ (nth_error_In _ _ N)) as (p & q & r & E1 & E2 & E3).
      rewrite E1, E2, E3. cbn [unwrap bind].
      destruct (IH (S s) (acc + (dist q p + dist r q + dist p r))%Q ltac:(lia)) as (w & w' & F & W & G).
      exists (dist q p + dist r q + dist p r + w)%Q, w'. split; [exact F|]. split; [rewrite W; ring|].
      rewrite (skipn_nth N). exists p, q, r, w. split; [cbn; auto|]. split; auto. reflexivity.
  Qed.
  Lemma perimeters_eq T : forall w w', (w == w')%Q -> perimeters hm dist T w -> perimeters hm dist T w'.
  Proof.
    destruct T as [|t T]; cbn; intros w w' E H; [rewrite <- E; auto|].
    destruct H as (p & q & r & s & A & B & C). exists p, q, r, s. split; auto. split; auto. rewrite <- E. auto.
  Qed.
  Lemma weight_ok pre T : known hm T -> exists w, total_edge_weight hm dist (after pre T) = Ok w /\ perimeters hm dist (skipn (length pre) T) w.
  Proof.
    intros KN. unfold total_edge_weight. rewrite b_len_after. cbn [bind].
    change (b_start (after pre T)) with (length pre). change (foldM _ ?l ?a) with (foldM (weigh (after pre T)) l a).
    destruct (le_lt_dec (length pre) (length T)) as [L|L].
    - destruct (@weight_step pre T KN (length T - length pre) (length pre) 0%Q ltac:(lia)) as (w & w' & F & W & G).
      exists w'. split; auto. apply perimeters_eq with w; auto. rewrite W. ring.
    - exists 0%Q. unfold tri3 in *. rewrite (proj2 (Nat.sub_0_le (length T) (length pre))) by lia. split; [reflexivity|]. rewrite skipn_all2 by lia. cbn. reflexivity.
  Qed.

  (** verify_area accepts a triangulation without triangles *)
  Lemma area_empty area2 eps reference pre : (0 <= eps)%Q -> verify_area hm area2 eps reference (after pre []) = Ok tt.
  Proof.
    intros E. unfold verify_area, get_area. rewrite b_len_after. cbn [bind length seq foldM].
    assert (Q : Qle_bool (Qabs (1 - (1 # 2) * 0 / reference)) (1 + 5 * eps) = true).
    { apply Qle_bool_iff. setoid_replace (1 - (1 # 2) * 0 / reference)%Q with 1%Q by (unfold Qdiv; ring).
      change (Qabs 1) with 1%Q. lra. }
    rewrite Q. reflexivity.
  Qed.
  (** and every triangulation whose area is at most twice the reference *)
  Lemma area_accepts area2 eps reference t a : (0 <= eps)%Q -> (0 < reference)%Q -> get_area hm area2 t = Ok a ->
    (0 <= a)%Q -> (a <= 2 * reference)%Q -> verify_area hm area2 eps reference t = Ok tt.
  Proof.
    intros E R G A1 A2. unfold verify_area. rewrite G. cbn [bind].
    assert (Q : Qle_bool (Qabs (1 - a / reference)) (1 + 5 * eps) = true).
    { apply Qle_bool_iff. apply Qle_trans with 1%Q; [|lra]. apply Qabs_Qle_condition.
      assert (0 <= a / reference)%Q by (apply Qle_shift_div_l; lra).
      assert (a / reference <= 2)%Q by (apply Qle_shift_div_r; lra). lra. }
    rewrite Q. reflexivity.
  Qed.
End Verify.

(** ** verify_all_indices_used *)
Lemma set_add_in x s y : In y (set_add x s) <-> y = x \/ In y s.
Proof.
  induction s as [|z s IH]; cbn; [intuition|]. destruct (Nat.eqb_spec x z) as [->|N]; cbn; [intuition|]. rewrite IH. intuition.
Qed.
Lemma set_of_in l y : In y (set_of l) <-> In y l.
Proof.
  unfold set_of. assert (G : forall s, In y (fold_left (fun s x => set_add x s) l s) <-> In y l \/ In y s).
  { induction l as [|x l IH]; intros s; cbn; [tauto|]. rewrite IH, set_add_in. intuition. }
  rewrite G. cbn. tauto.
Qed.
Lemma used_fold : forall vs seen, (exists r, foldM (fun seen v => assert (existsb (Nat.eqb v) seen) (Ok (filter (fun x => negb (x =? v)) seen))) vs seen = Ok r /\
    forall x, In x r <-> In x seen /\ ~ In x vs) <-> (NoDup vs /\ incl vs seen).
Proof.
  induction vs as [|v vs IH]; intros seen; cbn [foldM].
  - split; [split; [constructor|intros x []]|]. intros _. exists seen. split; auto. cbn. tauto.
  - destruct (existsb (Nat.eqb v) seen) eqn:E; cbn [assert bind].
    + apply existsb_exists in E as (x & I & X). apply Nat.eqb_eq in X. subst x.
      specialize (IH (filter (fun x => negb (x =? v)) seen)). split.
      * intros (r & F & G). destruct (proj1 IH) as [N1 N2].
        { exists r. split; auto. intros x. rewrite G, filter_In. cbn. destruct (Nat.eqb_spec x v); cbn; intuition. }
        split.
        -- constructor; auto. intros V. apply N2 in V. apply filter_In in V as [_ V]. rewrite Nat.eqb_refl in V. discriminate.
        -- intros x [<-|X]; auto. apply N2 in X. apply filter_In in X. tauto.
      * intros [N1 N2]. inversion N1; subst. destruct (proj2 IH) as (r & F & G).
        { split; auto. intros x X. apply filter_In. split; [apply N2; right; auto|]. destruct (Nat.eqb_spec x v); auto. subst. tauto. }
        exists r. split; auto. intros x. rewrite G, filter_In. cbn. destruct (Nat.eqb_spec x v); cbn; intuition.
    + split; [intros (r & F & _); discriminate|]. intros [_ N2]. exfalso.
      assert (existsb (Nat.eqb v) seen = true); [|congruence]. apply existsb_exists. exists v. split; [apply N2; left; auto|apply Nat.eqb_refl].
Qed.
Lemma all_used_iff pre ix vs : verify_all_indices_used vs (mkB (pre ++ ix) (length pre)) = Ok tt <->
  NoDup vs /\ forall x, In x vs <-> In x ix.
Proof.
  unfold verify_all_indices_used. cbn [b_idx b_start]. rewrite skipn_app, skipn_all, Nat.sub_diag. cbn [app skipn].
  set (f := fun seen v => _). split.
  - intros H. destruct (foldM f vs (set_of ix)) as [r| |] eqn:F; try discriminate. cbn [bind] in H.
    assert (r = []) as -> by (destruct r; [auto|discriminate]).
    assert (Q : NoDup vs /\ incl vs (set_of ix)).
    { assert (M : forall vs seen r, foldM f vs seen = Ok r -> (forall x, In x r <-> In x seen /\ ~ In x vs)).
      { clear. induction vs as [|v vs IH]; intros seen r F; cbn in F; [injection F as <-; cbn; tauto|].
        unfold f at 1 in F. destruct (existsb (Nat.eqb v) seen); [|discriminate F]. cbn [assert bind] in F.
        intros x. rewrite (IH _ _ F), filter_In. cbn. destruct (Nat.eqb_spec x v); cbn; intuition. }
      apply used_fold. exists []. split; [exact F|exact (M _ _ _ F)]. }
    destruct Q as [N I]. split; auto. intros x. split; [intros X; apply set_of_in; auto|].
    intros X. destruct (in_dec Nat.eq_dec x vs) as [|NI]; auto. exfalso.
    destruct (proj2 (used_fold vs (set_of ix)) (conj N I)) as (r & F' & G). fold f in F'. rewrite F in F'. injection F' as <-.
    apply (G x). split; auto. apply set_of_in. auto.
  - intros [N I]. destruct (proj2 (used_fold vs (set_of ix))) as (r & F' & G).
    { split; auto. intros x X. apply set_of_in, I. auto. }
    fold f in F'. rewrite F'. cbn [bind]. destruct r as [|x r]; auto. exfalso.
    destruct (proj1 (G x) (or_introl eq_refl)) as [A B]. apply B, I, set_of_in. auto.
Qed.

(** ** verify_no_intersections *)
Lemma step3_iff (R : nat -> Prop) p n : Forall R (step3 (3 * p) (3 * n)) <-> forall i, p <= i < n -> R (3 * i).
Proof.
  unfold step3. replace ((3 * n - 3 * p + 2) / 3) with (n - p).
  2:{ replace (3 * n - 3 * p + 2) with (2 + (n - p) * 3) by lia. rewrite Nat.div_add by lia. reflexivity. }
  rewrite Forall_forall. split.
  - intros F i I. apply F. apply in_map_iff. exists (i - p). split; [lia|]. apply in_seq. lia.
  - intros F x I. apply in_map_iff in I as (k & <- & I). apply in_seq in I. replace (3 * p + 3 * k) with (3 * (p + k)) by lia. apply F. lia.
Qed.
Section Cross.
  Variables (P : Type) (hm : nat -> option P) (meets : P -> P -> P -> P -> bool).
  Lemma b_get_after pre T i t k : nth_error T i = Some t -> k < 3 ->
    b_get (after pre T) (3 * i + k) = Ok (fst (side t k)) /\ b_get (after pre T) (3 * i + (k + 1) mod 3) = Ok (snd (side t k)).
  Proof.
    destruct t as [[a b] c]. intros H K. destruct (slot_get pre H) as (A & B & C).
    unfold b_get, after. cbn [b_idx b_start]. destruct k as [|[|[|k]]]; [| | |lia]; cbn [side fst snd].
    - change ((0 + 1) mod 3) with 1. rewrite !Nat.add_0_r, Nat.add_assoc. auto.
    - change ((1 + 1) mod 3) with 2. rewrite !Nat.add_assoc. auto.
    - change ((2 + 1) mod 3) with 0. rewrite !Nat.add_0_r, Nat.add_assoc. auto.
  Qed.
  Lemma Forall3 (R : nat -> Prop) : Forall R [0; 1; 2] <-> forall k, k < 3 -> R k.
  Proof.
    split; [|intros H; repeat constructor; apply H; lia].
    intros H k K. rewrite Forall_forall in H. apply H. cbn. lia.
  Qed.
  Lemma no_intersections_iff p pre T : length pre = 3 * p -> known hm T ->
    verify_no_intersections hm meets (after pre T) = Ok tt <->
    forall i j t u, p <= i -> p <= j -> i <> j -> nth_error T i = Some t -> nth_error T j = Some u ->
      forall k l, k < 3 -> l < 3 -> apart hm meets (side t k) (side u l).
  Proof.
    intros LP KN. unfold verify_no_intersections.
    replace (length (b_idx (after pre T)) - b_start (after pre T)) with (3 * length T)
      by (unfold after; cbn [b_idx b_start]; rewrite app_length, flatten_length; unfold tri3; lia).
    replace (b_start (after pre T)) with (3 * p) by auto.
    assert (Known : forall i t k, nth_error T i = Some t -> k < 3 ->
      exists a b, hm (fst (side t k)) = Some a /\ hm (snd (side t k)) = Some b).
    { intros i [[a b] c] k N K. pose proof (proj1 (Forall_forall _ _) KN _ (nth_error_In _ _ N)) as (x & y & z & E1 & E2 & E3).
      destruct k as [|[|[|k]]]; [| | |lia]; cbn; eauto. }
    rewrite foldM_unit, step3_iff.
    assert (Pair : forall i j t u, nth_error T i = Some t -> nth_error T j = Some u -> i <> j ->
      (foldM (fun _ k => foldM (fun _ l =>
        let* i0 := b_get (after pre T) (3 * i + k) in let* v0 := unwrap (hm i0) in
        let* i1 := b_get (after pre T) (3 * i + (k + 1) mod 3) in let* v1 := unwrap (hm i1) in
        let* i2 := b_get (after pre T) (3 * j + l) in let* v2 := unwrap (hm i2) in
        let* i3 := b_get (after pre T) (3 * j + (l + 1) mod 3) in let* v3 := unwrap (hm i3) in
        if (i0 =? i2) || (i0 =? i3) || (i1 =? i2) || (i1 =? i3) then Ok tt else
        assert (negb (meets v0 v1 v2 v3)) (Ok tt)) [0; 1; 2] tt) [0; 1; 2] tt = Ok tt) <->
      (forall k l, k < 3 -> l < 3 -> apart hm meets (side t k) (side u l))).
    { intros i j t u Ni Nj NE. rewrite foldM_unit, Forall3.
      assert (One : forall k l, k < 3 -> l < 3 -> (
        (let* i0 := b_get (after pre T) (3 * i + k) in let* v0 := unwrap (hm i0) in
        let* i1 := b_get (after pre T) (3 * i + (k + 1) mod 3) in let* v1 := unwrap (hm i1) in
        let* i2 := b_get (after pre T) (3 * j + l) in let* v2 := unwrap (hm i2) in
        let* i3 := b_get (after pre T) (3 * j + (l + 1) mod 3) in let* v3 := unwrap (hm i3) in
        if (i0 =? i2) || (i0 =? i3) || (i1 =? i2) || (i1 =? i3) then Ok tt else
        assert (negb (meets v0 v1 v2 v3)) (Ok tt)) = Ok tt <-> apart hm meets (side t k) (side u l))).
      { intros k l K L. destruct (@b_get_after pre T i t k Ni K) as [-> ->]. destruct (@b_get_after pre T j u l Nj L) as [-> ->].
        destruct (Known _ _ _ Ni K) as (a & b & E1 & E2). destruct (Known _ _ _ Nj L) as (c & d & E3 & E4).
        unfold apart. cbn [bind]. rewrite E1, E2, E3, E4. cbn [unwrap bind].
        destruct (Nat.eqb_spec (fst (side t k)) (fst (side u l))); cbn [orb]; [tauto|].
        destruct (Nat.eqb_spec (fst (side t k)) (snd (side u l))); cbn [orb]; [tauto|].
        destruct (Nat.eqb_spec (snd (side t k)) (fst (side u l))); cbn [orb]; [tauto|].
        destruct (Nat.eqb_spec (snd (side t k)) (snd (side u l))); cbn [orb]; [tauto|].
        destruct (meets a b c d) eqn:M; cbn; split; try discriminate; auto.
        - intros [|[|[|[|(p1 & q & r & s & A & B & C & D & X)]]]]; try tauto. congruence.
        - intros _. right; right; right; right. exists a, b, c, d. auto. }
      split.
      - intros H k l K L. specialize (H k K). rewrite foldM_unit, Forall3 in H. apply One; auto.
      - intros H k K. rewrite foldM_unit, Forall3. intros l L. apply One; auto. }
    split.
    - intros H i j t u Pi Pj NE Ni Nj. assert (Li : i < length T) by (apply nth_error_Some; congruence).
      assert (Lj : j < length T) by (apply nth_error_Some; congruence).
      specialize (H i ltac:(lia)). rewrite foldM_unit, step3_iff in H. specialize (H j ltac:(lia)).
      destruct (Nat.eqb_spec (3 * i) (3 * j)); [lia|]. apply (Pair _ _ _ _ Ni Nj NE). exact H.
    - intros H i I. rewrite foldM_unit, step3_iff. intros j J.
      destruct (Nat.eqb_spec (3 * i) (3 * j)); [reflexivity|].
      destruct (nth_error T i) as [t|] eqn:Ni; [|apply nth_error_None in Ni; lia].
      destruct (nth_error T j) as [u|] eqn:Nj; [|apply nth_error_None in Nj; lia].
      assert (NE : i <> j) by lia. apply (Pair _ _ _ _ Ni Nj NE). apply (H i j); auto; lia.
  Qed.
End Cross.
Lemma unchecked_triangle : exists (hm : nat -> option Z) negative pre T,
    verify_non_degenerate hm negative (after pre T) = Ok tt /\ Forall (fun t => ~ sound hm negative t) T /\ T <> [].
Proof.
  exists (fun x => Some (Z.of_nat x)), (fun a b c => (c <? b)%Z), [0; 1; 2], [(3, 5, 4)]. split; [vm_compute; reflexivity|].
  split; [|discriminate]. constructor; [|constructor]. intros (p & q & r & (A & B & C) & D). injection A as <-. injection B as <-. injection C as <-. discriminate D.
Qed.
