(** The sweep with the search tree: what it covers, and a simple polygon on which only the debug build panics. *)
From Coq Require Import List Arith Bool QArith Sorting.Sorted Lqa Lia.
From Verif Require Import Base Mesh Tess Monotone TriSpec BufferSpec MinWeightSpec GeoSpec Geo MonoSpec Sweep SweepSpec TessProofs LinearProofs DynamicProofs MonoLaw MonoLawProofs DelaunayLaw SweepProofs PolySpec SweepEx SweepFacts SweepTree SweepTreeSpec SweepTreeProofs.
Import ListNotations.
Set Implicit Arguments.
Unset Strict Implicit.
Local Open Scope nat_scope.

(** There is one ordered list of given edges. *)
Lemma sorted_unique y t : StronglySorted (xgt y) t -> forall t', StronglySorted (xgt y) t' -> (forall s, In s t <-> In s t') -> t = t'.
Proof.
  induction 1 as [|a t X IH F]; intros t' X' I.
  - destruct t' as [|b t']; auto. destruct (proj2 (I b) (or_introl eq_refl)).
  - inversion X' as [E|b u X2 F2 E]; subst; [destruct (proj1 (I a) (or_introl eq_refl))|]. rewrite Forall_forall in F, F2. unfold xgt in F, F2.
    assert (AB : a = b).
    { destruct (proj1 (I a) (or_introl eq_refl)) as [|A]; auto. destruct (proj2 (I b) (or_introl eq_refl)) as [|B]; auto.
      specialize (F b B). specialize (F2 a A). exfalso. lra. }
    subst b. f_equal. apply IH; auto. intros s. split; intros J.
    + destruct (proj1 (I s) (or_intror J)) as [<-|]; auto. specialize (F a J). exfalso. lra.
    + destruct (proj2 (I s) (or_intror J)) as [<-|]; auto. specialize (F2 a J). exfalso. lra.
Qed.
Theorem ordered_unique y t t' : pairwise t -> ordered y t -> ordered y t' -> (forall s, In s t <-> In s t') -> t = t'.
Proof.
  intros P O O' I. assert (P' : pairwise t') by (intros a b A B; apply P; apply I; auto).
  destruct (ordered_of P O) as (_ & _ & X). destruct (ordered_of P' O') as (_ & _ & X'). exact (sorted_unique X X' I).
Qed.

Lemma large_queue vs M dbg tol ix c : sweep_large vs M dbg tol ix = Ok c ->
  exists es, queue_of (length vs) es /\ sweep dbg (find_tree vs (M := M) dbg) (length vs) es ix = Ok c.
Proof.
  intros H. unfold sweep_large in H. inv_ok H. inv_ok H. exists (sort_events vs a). split; auto.
  destruct (classified H1) as [A B]. split.
  - rewrite <- A. apply Permutation.Permutation_map. apply sort_perm.
  - rewrite Forall_forall in *. intros e He. apply B. apply (Permutation.Permutation_in _ (sort_perm vs a)); auto.
Qed.
Theorem large_linear (vs : list (pt * nat)) apos aneg dbg tol ix st ix' :
  sweep_large vs (linear vs apos aneg) dbg tol ix = Ok (st, ix') -> all_closed st -> exists T, ix' = ix ++ flatten T /\ covers (map snd vs) T.
Proof.
  intros H C. destruct (large_queue H) as (es & Q & R). destruct (@sweep_linear _ vs apos aneg dbg _ es ix st ix' R Q C) as (T & A & B & _). eauto.
Qed.
Theorem large_delaunay (vs : list (pt * nat)) apos aneg convex incircle dbg' dbg tol ix st ix' :
  sweep_large vs (delaunay dbg' vs apos aneg convex incircle) dbg tol ix = Ok (st, ix') -> all_closed st ->
  exists T, ix' = ix ++ flatten T /\ covers (map snd vs) T.
Proof.
  intros H C. destruct (large_queue H) as (es & Q & R).
  destruct (@sweep_delaunay _ vs apos aneg convex incircle dbg' dbg _ es ix st ix' R Q C) as (T & A & B & _). eauto.
Qed.

(** two towers, the lower one with a flat top *)
Definition castle_z : list (Z * Z) := [(0, 0); (5, -1); (10, 0); (9, 4); (6, 4); (5, 2); (4, 5); (2, 7); (1, 5)]%Z.
Definition castle : list pt := map (fun p => (inject_Z (fst p), inject_Z (snd p))) castle_z.
Definition castle_vs : list (pt * nat) := combine castle (seq 0 9).
Lemma castle_simple : simple_polygon castle.
Proof.
  split; [cbn; lia|]. cbn [length castle castle_z map]. intros i j p Hi Hj N (t & T0 & T1 & X & Y) (s & S0 & S1 & X' & Y').
  do 9 (destruct i as [|i]; [do 9 (destruct j as [|j]; [clear Hi Hj; try congruence; cbn in *;
    try (exfalso; unfold inject_Z in *; lra);
    first [left; split; [reflexivity|]; split; cbn; unfold inject_Z in *; lra
          |right; split; [reflexivity|]; split; cbn; unfold inject_Z in *; lra]
    |]); lia|]); lia.
Qed.
Lemma castle_events tol : (0 <= tol < 1)%Q -> mapM (classify_at castle_vs tol) (seq 0 9) = mapM (classify_at castle_vs 0) (seq 0 9).
Proof.
  intros H.
  assert (E : forall t i, i < 9 -> classify_at castle_vs t i = Ok (mkEv i (prev_of 9 i) (next_of 9 i)
    (classify t (ip (nth (prev_of 9 i) castle_z (0, 0)%Z)) (ip (nth i castle_z (0, 0)%Z)) (ip (nth (next_of 9 i) castle_z (0, 0)%Z))))).
  { intros t i Hi. do 9 (destruct i as [|i]; [reflexivity|]). lia. }
  assert (C : forall i, i < 9 -> classify_at castle_vs tol i = classify_at castle_vs 0 i).
  { intros i Hi. rewrite !E by auto. do 2 f_equal. apply classify_int; auto. left.
    do 9 (destruct i as [|i]; [reflexivity|]). lia. }
  cbn [seq mapM]. rewrite !C by lia. reflexivity.
Qed.
(** the triangulator, with exact orientation tests *)
Definition exact_linear (vs : list (pt * nat)) : mono := linear vs (fun p q r => Qlt_b 0 (orient p q r)) (fun p q r => Qlt_b (orient p q r) 0).
Definition castle_ix : list nat := [7; 8; 6; 6; 8; 5; 4; 5; 3; 3; 5; 2; 8; 0; 5; 5; 0; 2; 0; 1; 2].
Definition closed_b M (st : status M) : bool := forallb (fun o => match o with None => true | _ => false end) (s_left st).
Definition good M (r : res (ctx M)) : bool :=
  match r with Ok (st, ix) => closed_b st && (if list_eq_dec Nat.eq_dec ix castle_ix then true else false) | _ => false end.
Lemma castle_good : good (let* es := mapM (classify_at castle_vs 0) (seq 0 9) in
  sweep false (find_tree castle_vs (M := exact_linear castle_vs) false) 9 (sort_events castle_vs es) []) = true.
Proof. vm_compute. reflexivity. Qed.
Lemma good_ok M (r : res (ctx M)) : good r = true -> exists st, r = Ok (st, castle_ix) /\ closed_b st = true.
Proof.
  destruct r as [[st ix]| |]; try discriminate. cbn [good]. intros H. apply andb_true_iff in H as [C E]. destruct (list_eq_dec _ _ _) as [->|]; [|discriminate]. eauto.
Qed.
Lemma castle_release tol : (0 <= tol < 1)%Q -> exists st,
  sweep_large castle_vs (exact_linear castle_vs) false tol [] = Ok (st, castle_ix) /\ closed_b st = true.
Proof.
  intros H. unfold sweep_large. change (length castle_vs) with 9. rewrite castle_events by auto. cbn [Nat.leb assert]. apply good_ok. exact castle_good.
Qed.
Lemma castle_debug tol : (0 <= tol < 1)%Q -> sweep_large castle_vs (exact_linear castle_vs) true tol [] = Panic.
Proof.
  intros H. unfold sweep_large. change (length castle_vs) with 9. rewrite castle_events by auto. apply panics. vm_compute. reflexivity.
Qed.
Theorem castle_refuted : exists vs, simple_polygon (map fst vs) /\ (0 < area2 (map fst vs))%Q /\
  forall tol, (0 <= tol < 1)%Q -> sweep_large vs (exact_linear vs) true tol [] = Panic /\
    exists st ix, sweep_large vs (exact_linear vs) false tol [] = Ok (st, ix) /\ all_closed st /\ length ix = 21.
Proof.
  exists castle_vs. split; [apply castle_simple|]. split; [reflexivity|]. intros tol H. split; [apply castle_debug; auto|].
  destruct (castle_release H) as (st & E & C). exists st, castle_ix. split; auto. split; [|reflexivity].
  unfold closed_b in C. rewrite forallb_forall in C. intros k v N. apply nth_error_In in N. discriminate (C _ N).
Qed.
