(** Linear and dynamic triangulators are lawful. *)
From Coq Require Import List Arith Bool Lia ZArith Permutation.
From Verif Require Import Base Mesh Tess Buffer Monotone TriSpec TriFacts BufferSpec BufferProofs MinWeightSpec MonoSpec TessProofs LinearProofs DynamicProofs MonoLaw.
Import ListNotations.
Set Implicit Arguments.
Unset Strict Implicit.
Local Open Scope nat_scope.

Definition last_opt (l : list nat) : option nat := hd_error (rev l).
Lemma last_opt_snoc l x : last_opt (l ++ [x]) = Some x.
Proof. unfold last_opt. rewrite rev_app_distr. reflexivity. Qed.
Lemma last_opt_last l x d : last_opt l = Some x -> last l d = x.
Proof.
  unfold last_opt. intros H. destruct (rev l) as [|y r] eqn:E; [discriminate|]. injection H as ->.
  replace l with (rev r ++ [x]); [apply last_snoc|]. rewrite <- (rev_involutive l), E. reflexivity.
Qed.

(** fields [last_left] and [last_right] *)
Definition lasts (left right : option nat) (c : gc) : Prop :=
  left = Some (lastL c) /\ right = last_opt (side_of false (g_ops c)).
Lemma lasts_left left right c c' x : g_v c' = g_v c -> g_ops c' = g_ops c ++ [(true, x)] -> lasts left right c -> lasts (Some x) right c'.
Proof.
  intros E1 E2 [A B]. unfold lasts, lastL. rewrite E2, !side_snoc. cbn. rewrite last_snoc, app_nil_r. auto.
Qed.
Lemma lasts_right left right c c' x : g_v c' = g_v c -> g_ops c' = g_ops c ++ [(false, x)] -> lasts left right c -> lasts left (Some x) c'.
Proof.
  intros E1 E2 [A B]. unfold lasts, lastL in *. rewrite E2, !side_snoc. cbn. rewrite app_nil_r, last_opt_snoc, E1. auto.
Qed.
Lemma opposite_law d st left right c t : lasts left right c -> d = last_dir DNone (g_ops c) ->
  dir_eqb d DRight = false -> opposite_of d st left right = Ok t -> t = lastR c.
Proof.
  intros [A B] D N H. unfold opposite_of in H. inv_ok H. inv_ok H. inv_ok H. injection H as <-.
  unfold lastR. destruct d; try discriminate.
  - inv_ok H0. symmetry. apply last_opt_last. congruence.
  - inv_ok H0. inv_ok H0. rewrite A in H0. injection H0 as <-.
    assert (g_ops c = []).
    { destruct (g_ops c) as [|o ops] eqn:E; auto. exfalso. symmetry in D. revert D. apply last_dir_some. discriminate. }
    unfold lastL. rewrite H0. reflexivity.
Qed.
Lemma right_law d c : d = last_dir DNone (g_ops c) -> dir_eqb d DRight = true ->
  g_ops c = [] \/ exists l x, g_ops c = l ++ [(false, x)].
Proof.
  intros D E. destruct (g_ops c) as [|o ops] eqn:EO; auto. right.
  destruct (@exists_last _ (o :: ops) ltac:(discriminate)) as (l & [b x] & E2). rewrite E2 in *. exists l, x.
  unfold last_dir in D. rewrite fold_left_app in D. cbn in D. subst d. destruct b; [discriminate|reflexivity].
Qed.
Lemma last_dir_snoc d ops b x : last_dir d (ops ++ [(b, x)]) = dside b.
Proof. unfold last_dir. rewrite fold_left_app. reflexivity. Qed.

Lemma poly_net p (T : list (nat * nat * nat)) : triangulates p T ->
  (forall u w, tnet T u w = net (poly_edges p) u w) /\ (zlen T = zlen p - 2)%Z.
Proof.
  intros H. split; [intros u w; apply (triangulates_covers H)|].
  pose proof (triangulates_length H). unfold zlen. lia.
Qed.

Section LinLaw.
  Variables (P : Type) (vs : list (P * nat)) (apos aneg : P -> P -> P -> bool) (pre : list nat).
  Notation M := (linear vs apos aneg).
  Notation g := (glob vs).

  Definition lin_inv (s : lin) (c : gc) (len : nat) : Prop :=
    exists U, LI (l_d s) (l_stack s) (g_path c) U /\ l_d s = last_dir DNone (g_ops c) /\
      lasts (l_left s) (l_right s) c /\ (forall u w, g_E c u w = tnet (map g U) u w) /\ g_k c = zlen U.

  Lemma lin_lawful : lawful M (idx vs) pre.
  Proof.
    refine (@mkLaw M (idx vs) pre (fun _ => True) lin_inv _ _ _ _ _ _ _); auto.
    - intros v len. exists []. split; [exists v; auto|]. split; [reflexivity|]. split; [split; reflexivity|]. split; reflexivity.
    - intros T s c b x s' ix' _ (U & I & D & L & E & K) H.
      assert (HD : dside b = DLeft \/ dside b = DRight) by (destruct b; auto).
      assert (S : exists s0, lin_add vs apos aneg s0 x (dside b) (pre ++ flatten T) = Ok (s', ix') /\
        l_d s0 = l_d s /\ l_stack s0 = l_stack s /\
        (forall c', g_v c' = g_v c -> g_ops c' = g_ops c ++ [(b, x)] -> lasts (l_left s0) (l_right s0) c')).
      { unfold m_step in H. cbn [fst snd] in H. destruct b; cbn in H; eexists; (split; [exact H|]); cbn;
          (split; [reflexivity|]); (split; [reflexivity|]); intros c' E1 E2;
          [eapply lasts_left|eapply lasts_right]; eauto. }
      destruct S as (s0 & S & D0 & St0 & L0). rewrite <- D0, <- St0 in I.
      destruct (add_ok HD I S) as (U2 & -> & I2 & D2 & LL & LR).
      exists (T ++ map g U2), (mkG (g_v c) (g_ops c ++ [(b, x)]) (tnet (map g (U ++ U2))) (zlen (U ++ U2))).
      cbn [g_v g_ops g_E g_k]. split; [rewrite flatten_app, app_assoc; auto|]. split; [auto|].
      split.
      { exists (U ++ U2). cbn [g_E g_k g_ops g_v]. unfold g_path. cbn [g_v g_ops]. rewrite grow_snoc, D2.
        split; [exact I2|]. split; [rewrite last_dir_snoc; auto|].
        split; [rewrite LL, LR; apply L0; auto|]. auto. }
      split; [rewrite app_length; lia|]. split; [auto|]. split; [auto|]. split.
      + intros u w. rewrite E, map_app, !tnet_app. lia.
      + rewrite K. unfold zlen. rewrite !app_length, map_length. lia.
    - intros T s c ix' _ (U & I & D & L & E & K) N H. cbn in H. unfold lin_finish in H. inv_ok H. injection H as <-.
      apply Nat.leb_le in H0. exists T. split; auto. split; auto. split; auto.
      assert (TR : triangulates (g_poly c) U).
      { apply grow_triangulates. apply (LI_done I); auto. rewrite D. apply last_dir_some; auto. }
      destruct (poly_net (glob_triangulates vs TR)) as [A B]. split.
      + intros u w. rewrite E, A. lia.
      + rewrite K. pose proof (triangulates_length TR). unfold zlen. lia.
    - intros s c len (U & I & D & _) H. eapply right_law; eauto.
    - intros s c len t (U & I & D & L & _) N H. exact (opposite_law L D N H).
  Defined.
End LinLaw.

Section DynLaw.
  Variables (P : Type) (vs : list (P * nat)).
  Variable small : list (P * nat) -> res (option (list tri3)).
  Variable weight : list (P * nat) -> res (list tri3).
  Hypothesis small_tri : forall us T, small us = Ok (Some T) -> triangulates (map snd us) T.
  Hypothesis weight_tri : forall us T, weight us = Ok T -> triangulates (map snd us) T.
  Variable pre : list nat.
  Notation M := (dynamic vs small weight).

  Definition dyn_inv (s : dyn) (c : gc) (len : nat) : Prop :=
    y_left s = rev (g_v c :: side_of true (g_ops c)) /\ y_right s = rev (side_of false (g_ops c)) /\
    y_d s = last_dir DNone (g_ops c) /\ (forall u w, g_E c u w = 0%Z) /\ g_k c = 0%Z.

  Lemma dyn_lawful : lawful M (idx vs) pre.
  Proof.
    refine (@mkLaw M (idx vs) pre (fun _ => True) dyn_inv _ _ _ _ _ _ _); auto.
    - intros v len. repeat split.
    - intros T s c b x s' ix' _ (L & R & D & E & K) H. exists T, (mkG (g_v c) (g_ops c ++ [(b, x)]) (g_E c) (g_k c)).
      cbn [g_v g_ops g_E g_k]. unfold m_step in H. cbn [fst snd] in H.
      assert (HH : ix' = pre ++ flatten T /\ dyn_inv s' (mkG (g_v c) (g_ops c ++ [(b, x)]) (g_E c) (g_k c)) (length T)).
      { destruct b; cbn in H; injection H as <- <-; split; auto; unfold dyn_inv; cbn [y_left y_right y_d g_v g_ops g_E g_k];
          rewrite !side_snoc, last_dir_snoc; cbn [Bool.eqb]; rewrite ?app_nil_r, ?L, ?R; repeat split; auto.
        - cbn. rewrite rev_app_distr. reflexivity.
        - cbn. rewrite rev_app_distr. reflexivity. }
      destruct HH as [-> I]. repeat split; auto; try apply I.
    - intros T s c ix' _ (L & R & D & E & K) N H. cbn in H. unfold dyn_finish in H. rewrite L, R, rev_involutive in H.
      destruct (finish_tri small_tri weight_tri H) as (U & -> & TR).
      exists (T ++ U). split; [rewrite flatten_app, app_assoc; auto|]. split; auto. split; [rewrite app_length; lia|].
      change ((g_v c :: side_of true (g_ops c)) ++ rev (side_of false (g_ops c))) with (g_poly c) in TR.
      destruct (poly_net TR) as [A B]. split.
      + intros u w. rewrite tnet_app, A, E. lia.
      + rewrite K. unfold zlen in *. rewrite app_length, map_length in *. lia.
    - intros s c len (L & R & D & _) H. cbn in H. unfold dyn_is_right in H.
      destruct (y_d s) eqn:ED; try discriminate.
      + eapply right_law; eauto.
      + left. destruct (g_ops c) as [|o ops] eqn:E; auto. exfalso. symmetry in D. revert D. apply last_dir_some. discriminate.
    - intros s c len t (L & R & D & _) N H. cbn in N, H. unfold dyn_is_right in N. unfold dyn_last_opposite in H.
      destruct (y_d s) eqn:ED; try discriminate. inv_ok H. rewrite R in H. symmetry. apply last_opt_last. exact H.
  Qed.
End DynLaw.
