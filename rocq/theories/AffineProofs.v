(** Transforms over an arbitrary commutative ring. *)
From Coq Require Import List Arith ZArith Lia Bool Ring Ring_theory Setoid Morphisms.
From Verif Require Import Base Mesh Tess Alg.
Import ListNotations.
Set Implicit Arguments.
Unset Strict Implicit.

Section AffineProofs.
  Variables (R : Type) (zero one : R) (add mul sub : R -> R -> R) (opp : R -> R) (req : R -> R -> Prop).
  Hypothesis Eq : Equivalence req.
  Hypothesis Ext : ring_eq_ext add mul opp req.
  Hypothesis RT : ring_theory zero one add mul sub opp req.
  Add Ring Ra : RT (setoid Eq Ext).
  Instance add_proper : Proper (req ==> req ==> req) add := Radd_ext Ext.
  Instance mul_proper : Proper (req ==> req ==> req) mul := Rmul_ext Ext.
  Instance opp_proper : Proper (req ==> req) opp := Ropp_ext Ext.
  Instance sub_proper : Proper (req ==> req ==> req) sub.
  Proof. intros a b H c d K. rewrite !(Rsub_def RT), H, K. reflexivity. Qed.
  Infix "+" := add. Infix "*" := mul. Infix "-" := sub. Notation "- x" := (opp x).
  Infix "==" := req (at level 70).
  Notation rsum := (rsum zero add).
  Notation mmul := (mmul zero add mul).
  Notation mvec := (mvec zero add mul).
  Notation ident := (ident zero one).
  Notation vec := (vec R).

  (** ** finite sums *)
  Fixpoint lsum (l : list nat) (f : nat -> R) : R := match l with [] => zero | i :: l => f i + lsum l f end.
  Lemma lsum_ext l f g : (forall i, In i l -> f i == g i) -> lsum l f == lsum l g.
  Proof.
    induction l as [|x l IH]; intros H; cbn; [reflexivity|]. rewrite (H x) by (left; reflexivity).
    rewrite IH; [reflexivity|]. intros i I. apply H. right. exact I.
  Qed.
  Lemma lsum_zero l f : (forall i, In i l -> f i == zero) -> lsum l f == zero.
  Proof.
    intros H. rewrite (lsum_ext (g := fun _ => zero)) by exact H. clear H.
    induction l as [|x l IH]; cbn; [reflexivity|]. rewrite IH. ring.
  Qed.
  Lemma lsum_add l f g : lsum l (fun i => f i + g i) == lsum l f + lsum l g.
  Proof. induction l as [|x l IH]; cbn; [ring|]. rewrite IH. ring. Qed.
  Lemma lsum_mul l c f : lsum l (fun i => c * f i) == c * lsum l f.
  Proof. induction l as [|x l IH]; cbn; [ring|]. rewrite IH. ring. Qed.
  Lemma lsum_swap l k f : lsum l (fun i => lsum k (fun j => f i j)) == lsum k (fun j => lsum l (fun i => f i j)).
  Proof.
    induction l as [|x l IH]; cbn [lsum].
    - symmetry. apply lsum_zero. reflexivity.
    - rewrite IH, <- lsum_add. reflexivity.
  Qed.
  Lemma lsum_pick n d f : d < n -> lsum (seq 0 n) (fun i => if Nat.eqb d i then f i else zero) == f d.
  Proof.
    intros H. enough (G : forall s n, lsum (seq s n) (fun i => if Nat.eqb d i then f i else zero) ==
      if (Nat.leb s d && Nat.ltb d (s + n))%bool then f d else zero).
    { rewrite G. change (0 + n)%nat with n. change (0 <=? d) with true. replace (d <? n) with true by (symmetry; apply Nat.ltb_lt; exact H). reflexivity. }
    clear n H. intros s n. revert s. induction n as [|n IH]; intros s.
    - cbn [seq lsum]. rewrite Nat.add_0_r. destruct (Nat.leb_spec s d), (Nat.ltb_spec d s); try lia; cbn; reflexivity.
    - cbn [seq lsum]. rewrite IH.
      destruct (Nat.eqb_spec d s) as [->|D].
      + replace (S s <=? s) with false by (symmetry; apply Nat.leb_gt; lia).
        replace (s <=? s) with true by (symmetry; apply Nat.leb_le; lia).
        replace (s <? s + S n) with true by (symmetry; apply Nat.ltb_lt; lia). cbn [andb]. ring.
      + replace (S s <=? d) with (s <=? d).
        2:{ destruct (Nat.leb_spec s d), (Nat.leb_spec (S s) d); try lia; reflexivity. }
        replace (S s + n)%nat with (s + S n)%nat by lia. ring.
  Qed.
  Lemma rsum_lsum n f : rsum n f = lsum (seq 0 n) f.
  Proof. unfold Alg.rsum. induction (seq 0 n) as [|x l IH]; cbn; [reflexivity|]. rewrite IH. reflexivity. Qed.
  Lemma rsum_last n f : rsum (S n) f == rsum n f + f n.
  Proof.
    unfold Alg.rsum. rewrite seq_S, fold_right_app. cbn. generalize (seq 0 n). induction l as [|x l IH]; cbn; [ring|].
    rewrite IH. ring.
  Qed.
  Lemma rsum_ext n f g : (forall i, i < n -> f i == g i) -> rsum n f == rsum n g.
  Proof. intros H. rewrite !rsum_lsum. apply lsum_ext. intros i I. apply in_seq in I. apply H. lia. Qed.

  Lemma mvec_ext n a v w i : (forall k, k < n -> v k == w k) -> mvec n a v i == mvec n a w i.
  Proof. intros H. apply rsum_ext. intros k Hk. rewrite (H k Hk). reflexivity. Qed.
  Lemma mvec_add n a v w i : mvec n a (fun k => v k + w k) i == mvec n a v i + mvec n a w i.
  Proof.
    unfold Alg.mvec. rewrite !rsum_lsum, <- lsum_add. apply lsum_ext. intros. ring.
  Qed.
  Lemma mvec_sub n a v w i : mvec n a (fun k => v k - w k) i == mvec n a v i - mvec n a w i.
  Proof.
    transitivity (mvec n a (fun k => v k + - one * w k) i); [apply mvec_ext; intros; ring|].
    rewrite mvec_add. assert (H : mvec n a (fun k => - one * w k) i == - one * mvec n a w i).
    { unfold Alg.mvec. rewrite !rsum_lsum, <- lsum_mul. apply lsum_ext. intros. ring. }
    rewrite H. ring.
  Qed.
  Lemma mvec_mul n a b v i : mvec n (mmul n a b) v i == mvec n a (mvec n b v) i.
  Proof.
    unfold Alg.mvec, Alg.mmul. rewrite !rsum_lsum.
    transitivity (lsum (seq 0 n) (fun k => lsum (seq 0 n) (fun j => a i j * b j k * v k))).
    - apply lsum_ext. intros k _. rewrite (Rmul_comm RT), rsum_lsum, <- lsum_mul. apply lsum_ext. intros. ring.
    - rewrite lsum_swap. apply lsum_ext. intros j _. rewrite rsum_lsum, <- lsum_mul. apply lsum_ext. intros. ring.
  Qed.
  Lemma mvec_ident n v i : i < n -> mvec n ident v i == v i.
  Proof.
    intros H. unfold Alg.mvec. rewrite rsum_lsum, <- (lsum_pick v H). apply lsum_ext. intros k _.
    unfold Alg.ident. destruct (i =? k); ring.
  Qed.
  Lemma mvec_diag n d v i : i < n -> mvec n (diag zero d) v i == d i * v i.
  Proof.
    intros H. unfold Alg.mvec. rewrite rsum_lsum, <- (lsum_pick (fun k => d k * v k) H). apply lsum_ext. intros k _.
    unfold Alg.diag. destruct (Nat.eqb_spec i k) as [->|]; ring.
  Qed.

  Section Nd.
    Variable D : nat.
    Variable eqz : R -> bool.
    Hypothesis EZ : forall x, x == zero -> eqz x = true.
    Notation as_matrix := (as_matrix zero one D).
    Notation apply := (a_apply zero add mul D).
    Notation apply_vec := (a_apply_vec zero add mul D).
    Notation chain := (a_chain zero one add mul D eqz).

    (** the product of the extended matrices, entry by entry *)
    Lemma chain_mat t o i j : i < D -> j < D -> mmul (S D) (as_matrix o) (as_matrix t) i j == mmul D (a_mat o) (a_mat t) i j.
    Proof.
      intros Hi Hj. unfold Alg.mmul. rewrite rsum_last. unfold Alg.as_matrix at 3 4.
      replace (i <? D) with true by (symmetry; apply Nat.ltb_lt; exact Hi).
      replace (D <? D) with false by (symmetry; apply Nat.ltb_ge; lia).
      unfold Alg.ident. replace (D =? j) with false by (symmetry; apply Nat.eqb_neq; lia).
      rewrite (rsum_ext (g := fun k => a_mat o i k * a_mat t k j)); [ring|].
      intros k Hk. unfold Alg.as_matrix.
      replace (i <? D) with true by (symmetry; apply Nat.ltb_lt; exact Hi).
      replace (j <? D) with true by (symmetry; apply Nat.ltb_lt; exact Hj).
      replace (k <? D) with true by (symmetry; apply Nat.ltb_lt; exact Hk). reflexivity.
    Qed.
    Lemma chain_tr t o i : i < D -> mmul (S D) (as_matrix o) (as_matrix t) i D == mvec D (a_mat o) (a_tr t) i + a_tr o i.
    Proof.
      intros Hi. unfold Alg.mmul. rewrite rsum_last. unfold Alg.as_matrix at 3 4.
      replace (i <? D) with true by (symmetry; apply Nat.ltb_lt; exact Hi).
      replace (D <? D) with false by (symmetry; apply Nat.ltb_ge; lia).
      unfold Alg.ident. rewrite Nat.eqb_refl.
      rewrite (rsum_ext (g := fun k => a_mat o i k * a_tr t k)); [unfold Alg.mvec; ring|].
      intros k Hk. unfold Alg.as_matrix.
      replace (i <? D) with true by (symmetry; apply Nat.ltb_lt; exact Hi).
      replace (D <? D) with false by (symmetry; apply Nat.ltb_ge; lia).
      replace (k <? D) with true by (symmetry; apply Nat.ltb_lt; exact Hk). rewrite Nat.eqb_refl. reflexivity.
    Qed.
    Lemma chain_last t o j : j < D -> mmul (S D) (as_matrix o) (as_matrix t) D j == zero.
    Proof.
      intros Hj. unfold Alg.mmul. rewrite rsum_lsum. apply lsum_zero. intros k I. apply in_seq in I.
      unfold Alg.as_matrix. replace (D <? D) with false by (symmetry; apply Nat.ltb_ge; lia).
      destruct (Nat.ltb_spec k D); unfold Alg.ident.
      - replace (D =? k) with false by (symmetry; apply Nat.eqb_neq; lia). ring.
      - replace (k =? j) with false by (symmetry; apply Nat.eqb_neq; lia). ring.
    Qed.
    Lemma chain_ok t o : exists c, chain t o = Ok c /\ (forall i j, i < D -> j < D -> a_mat c i j == mmul D (a_mat o) (a_mat t) i j) /\
      (forall i, i < D -> a_tr c i == mvec D (a_mat o) (a_tr t) i + a_tr o i).
    Proof.
      unfold Alg.a_chain, Alg.from_matrix. rewrite (proj2 (forallb_forall _ _)).
      2:{ intros j I. apply in_seq in I. apply EZ, chain_last. lia. }
      cbn [assert]. eexists. split; [reflexivity|]. cbn [a_mat a_tr]. split; intros; [apply chain_mat|apply chain_tr]; auto.
    Qed.
    (** [chain] never panics and applies [t] first, then [o]; also on direction vectors *)
    Theorem chain_apply t o : exists c, chain t o = Ok c /\
      (forall v i, i < D -> apply c v i == apply o (apply t v) i) /\
      (forall v i, i < D -> apply_vec c v i == apply_vec o (apply_vec t v) i).
    Proof.
      destruct (chain_ok t o) as (c & E & M & T). exists c. split; [exact E|].
      assert (V : forall v i, i < D -> mvec D (a_mat c) v i == mvec D (a_mat o) (mvec D (a_mat t) v) i).
      { intros v i Hi. rewrite <- mvec_mul. unfold Alg.mvec. apply rsum_ext. intros k Hk. rewrite (M i k Hi Hk). reflexivity. }
      split; intros v i Hi; [|apply V; exact Hi].
      unfold Alg.a_apply. rewrite (V v i Hi), (T i Hi), mvec_add. ring.
    Qed.
    Theorem identity_apply v i : i < D -> apply (a_identity zero one) v i == v i.
    Proof. intros H. unfold Alg.a_apply. cbn [a_identity a_mat a_tr]. rewrite mvec_ident by exact H. ring. Qed.
    Theorem identity_chain t : exists c c', chain (a_identity zero one) t = Ok c /\ chain t (a_identity zero one) = Ok c' /\
      (forall v i, i < D -> apply c v i == apply t v i /\ apply c' v i == apply t v i).
    Proof.
      destruct (chain_apply (a_identity zero one) t) as (c & E & H & _), (chain_apply t (a_identity zero one)) as (c' & E' & H' & _).
      exists c, c'. split; [exact E|]. split; [exact E'|]. intros v i Hi. rewrite H, H' by exact Hi. split.
      - unfold Alg.a_apply at 1 3. rewrite (@mvec_ext D (a_mat t) _ v); [reflexivity|]. intros k Hk. apply identity_apply. exact Hk.
      - apply identity_apply. exact Hi.
    Qed.
    Theorem chain_assoc a b c : exists ab bc x y, chain a b = Ok ab /\ chain ab c = Ok x /\ chain b c = Ok bc /\ chain a bc = Ok y /\
      forall v i, i < D -> apply x v i == apply y v i.
    Proof.
      destruct (chain_apply a b) as (ab & E1 & H1 & _), (chain_apply b c) as (bc & E2 & H2 & _).
      destruct (chain_apply ab c) as (x & E3 & H3 & _), (chain_apply a bc) as (y & E4 & H4 & _).
      exists ab, bc, x, y. repeat (split; [assumption|]). intros v i Hi. rewrite H3, H4, H2 by exact Hi.
      unfold Alg.a_apply at 1 3. rewrite (@mvec_ext D (a_mat c) _ (apply b (apply a v))); [reflexivity|].
      intros k Hk. apply H1. exact Hk.
    Qed.
    Theorem translation_apply t d v i : i < D -> apply (a_with_translation add t d) v i == apply t v i + d i.
    Proof. intros H. unfold Alg.a_apply. cbn [a_with_translation a_mat a_tr]. ring. Qed.
    Theorem from_translation_apply d v i : i < D -> apply (a_from_translation zero one d) v i == v i + d i.
    Proof. intros H. unfold Alg.a_apply. cbn [a_from_translation a_mat a_tr]. rewrite mvec_ident by exact H. reflexivity. Qed.
    Theorem from_scale_apply d v i : i < D -> apply (a_from_scale zero d) v i == d i * v i.
    Proof. intros H. unfold Alg.a_apply. cbn [a_from_scale a_mat a_tr]. rewrite mvec_diag by exact H. ring. Qed.
    (** differences of points are transformed by [apply_vec] *)
    Theorem vec_apply t v w i : i < D -> apply_vec t (fun k => v k - w k) i == apply t v i - apply t w i.
    Proof. intros H. unfold Alg.a_apply, Alg.a_apply_vec. rewrite mvec_sub. ring. Qed.
    (** what [with_scale] computes: it scales the argument, applies the linear part, and adds the scaled translation *)
    Theorem scale_apply t s v i : i < D ->
      apply (a_with_scale zero add mul D t s) v i == apply_vec t (fun k => s k * v k) i + s i * a_tr t i.
    Proof.
      intros H. unfold Alg.a_apply, Alg.a_apply_vec. cbn [a_with_scale a_mat a_tr]. rewrite mvec_mul.
      rewrite (@mvec_ext D (a_mat t) _ (fun k => s k * v k)); [ring|]. intros k Hk. apply mvec_diag. exact Hk.
    Qed.
    (** so for a uniform scale it scales after the transform *)
    Theorem scale_uniform t s c v i : i < D -> (forall k, k < D -> s k == c) ->
      apply (a_with_scale zero add mul D t s) v i == c * apply t v i.
    Proof.
      intros H S. rewrite scale_apply, (S i H) by exact H. unfold Alg.a_apply, Alg.a_apply_vec.
      rewrite (@mvec_ext D (a_mat t) _ (fun k => c * v k)) by (intros k Hk; rewrite (S k Hk); reflexivity).
      unfold Alg.mvec. rewrite !rsum_lsum.
      rewrite (@lsum_ext _ _ (fun k => c * (a_mat t i k * v k))); [rewrite lsum_mul; ring|]. intros. ring.
    Qed.
    (** and for a diagonal linear part it scales after the transform *)
    Theorem scale_diag d tr s v i : i < D ->
      apply (a_with_scale zero add mul D (mkA (diag zero d) tr) s) v i == s i * apply (mkA (diag zero d) tr) v i.
    Proof.
      intros H. rewrite scale_apply by exact H. unfold Alg.a_apply, Alg.a_apply_vec. cbn [a_mat a_tr].
      rewrite !mvec_diag by exact H. ring.
    Qed.
  End Nd.

  (** ** Mat5 *)
  Notation m5_apply := (m5_apply zero one add mul).
  (** last row (0, 0, 0, 0, 1) *)
  Definition affine5 (m : nat -> nat -> R) : Prop := m 4 0 == zero /\ m 4 1 == zero /\ m 4 2 == zero /\ m 4 3 == zero /\ m 4 4 == one.
  Theorem m5_chain_apply t o v i : affine5 o ->
    m5_apply (m5_chain zero add mul t o) v i == m5_apply t (m5_apply o v) i.
  Proof.
    intros (A0 & A1 & A2 & A3 & A4). unfold Alg.m5_apply, Alg.m5_chain, Alg.mmul, Alg.rsum. cbn. rewrite A0, A1, A2, A3, A4. ring.
  Qed.
  Theorem m5_chain_affine t o : affine5 t -> affine5 o -> affine5 (m5_chain zero add mul t o).
  Proof.
    intros (A0 & A1 & A2 & A3 & A4) (B0 & B1 & B2 & B3 & B4). unfold affine5, Alg.m5_chain, Alg.mmul, Alg.rsum. cbn.
    rewrite A0, A1, A2, A3, A4, B0, B1, B2, B3, B4. repeat split; ring.
  Qed.
  Theorem m5_translation_apply t d v i : i < 4 -> m5_apply (m5_with_translation add t d) v i == m5_apply t v i + d i.
  Proof.
    intros H. unfold Alg.m5_apply, Alg.m5_with_translation, Alg.rsum. cbn.
    destruct i as [|[|[|[|i]]]]; cbn; try ring; lia.
  Qed.
  Theorem m5_from_translation_apply d v i : i < 4 -> m5_apply (m5_from_translation zero one d) v i == v i + d i.
  Proof.
    intros H. unfold Alg.m5_apply, Alg.m5_from_translation, Alg.rsum, Alg.ident. cbn.
    destruct i as [|[|[|[|i]]]]; cbn; try ring; lia.
  Qed.
  Theorem m5_from_scale_apply d v i : i < 4 -> m5_apply (m5_from_scale zero one d) v i == d i * v i.
  Proof.
    intros H. unfold Alg.m5_apply, Alg.m5_from_scale, Alg.rsum, Alg.ident. cbn.
    destruct i as [|[|[|[|i]]]]; cbn; try ring; lia.
  Qed.
  Theorem m5_vec_apply t v w i : i < 4 ->
    m5_apply_vec zero add mul t (fun k => v k - w k) i == m5_apply t v i - m5_apply t w i.
  Proof. intros H. unfold Alg.m5_apply, Alg.m5_apply_vec, Alg.rsum. cbn. ring. Qed.
  (** what [with_scale] computes: every row keeps its off-diagonal entries *)
  Theorem m5_scale_apply t s v i : i < 4 ->
    m5_apply (m5_with_scale mul t s) v i == m5_apply t v i + t i i * v i * (s i - one).
  Proof.
    intros H. unfold Alg.m5_apply, Alg.m5_with_scale, Alg.rsum. cbn.
    destruct i as [|[|[|[|i]]]]; cbn; try ring; lia.
  Qed.
End AffineProofs.
