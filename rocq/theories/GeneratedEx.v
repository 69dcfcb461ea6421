(** Concrete generated polygons. *)
From Coq Require Import List Arith QArith Reals Lra Lia.
From Verif Require Import Base GeoSpec PolySpec Zigzag ZigzagProofs StarSpec Star StarProofs.
Import ListNotations.
Set Implicit Arguments.
Unset Strict Implicit.

Definition zz8 (i : nat) : pt := zz 4 i.
Lemma zigzag8 : zigzag 8 = Ok (map (fun p => (Fin (fst p), snd p)) (map zz8 (seq 0 8))) /\
  Forall2 same_pt (map zz8 (seq 0 8)) [(-1, 1); (-1#2, -1); (0, 1); (1#2, -1); (1, 1); (1#2, 0); (0, 2); (-1#2, 0)]%Q.
Proof. split; [vm_compute; reflexivity|]. repeat (constructor; [split; vm_compute; reflexivity|]). constructor. Qed.

Local Open Scope R_scope.
Lemma random_ok min_vert max_vert min_r max_r ps : (3 <= min_vert)%nat -> 0 < min_r -> random_star min_vert max_vert min_r max_r ps ->
  (min_vert <= length ps <= max_vert)%nat /\ simple_rpolygon ps /\ star_shaped ps /\ 0 < rarea2 ps.
Proof.
  intros V3 RP (n & r & LN & LR & ->). assert (n3 : (3 <= n)%nat) by lia. assert (rp : forall i, (i < n)%nat -> 0 < r i) by (intros i L; destruct (LR i L); lra).
  split; [rewrite star_length; auto|]. split; [apply star_simple; auto|]. split; [apply star_star; auto|apply star_area; auto].
Qed.
Definition radius5 (i : nat) : R := if Nat.even i then 1 else 2.
Lemma star5 : exists ps, random_star 3 7 1 2 ps /\ length ps = 5%nat /\ corner ps 0 = (1, 0).
Proof.
  exists (star_points 5 radius5). split; [|split; [reflexivity|]].
  - exists 5%nat, radius5. split; [lia|]. split; [|reflexivity]. intros i _. unfold radius5. destruct (Nat.even i); lra.
  - unfold corner. cbn [star_points map seq length]. change (0 mod 5)%nat with 0%nat. cbn [nth]. unfold star_point, radius5. cbn [Nat.even INR].
    replace (0 / _ * 2 * PI) with 0 by (unfold Rdiv; ring). rewrite cos_0, sin_0. f_equal; ring.
Qed.
Lemma zero_radius : exists ps, random_star 4 4 0 1 ps /\ ~ simple_rpolygon ps.
Proof.
  exists (star_points 4 (fun _ => 0)). split.
  - exists 4%nat, (fun _ => 0). split; [lia|]. split; [|reflexivity]. intros i _. lra.
  - intros [_ H]. assert (C : forall i, corner (star_points 4 (fun _ => 0)) i = (0, 0)).
    { intros i. unfold corner. assert (L : (i mod 4 < 4)%nat) by (apply Nat.mod_upper_bound; lia). change (length (star_points 4 (fun _ => 0))) with 4%nat.
      destruct (i mod 4)%nat as [|[|[|[|]]]]; [| | | |lia]; cbn [star_points map seq nth]; unfold star_point; f_equal; ring. }
    destruct (H 0%nat 2%nat (0, 0)) as [[E _]|[E _]]; try (cbn; lia); try discriminate E; unfold on_side, between; rewrite !C; exists 0; cbn [fst snd]; (split; [lra|f_equal; ring]).
Qed.
