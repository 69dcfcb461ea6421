(** A concrete case for centroids. *)
From Coq Require Import List Arith Lia Bool Reals Lra.
From Verif Require Import Base DVec Mesh MeshMore Spec MeshSpec TopoSpec Alg AlgSpec Transform Normals NormalsSpec PlaneSpec SolidSpec MeshEx PlaneEx Centroid CentroidSpec CentroidProofs.
Import ListNotations.
Local Open Scope nat_scope.

Lemma wall_centre : wf (wall 2) /\ lvf (abs (wall 2)) 0 = true /\ exactly (lvv (abs (wall 2))) [0; 1; 2; 3] /\
  map (vp (abs (wall 2))) [0; 1; 2; 3] = map Some [at_ 0 0 0; at_ 2 0 0; at_ 2 0 2; at_ 0 0 2] /\
  centre (map (@u_pos R) [at_ 0 0 0; at_ 2 0 0; at_ 2 0 2; at_ 0 0 2]) (fun i => match i with 1 => 0 | _ => 1 end)%R /\
  lv (abs (wall 2)) 0 = true /\ ep (abs (wall 2)) 0 = Some (Linear R) /\ seg_length (0, 0)%R (3, 4)%R = 5%R.
Proof.
  split; [apply wall_wf|]. split; [vm_compute; reflexivity|]. split.
  { split; [repeat constructor; cbn; intuition lia|]. intros x. do 4 (destruct x as [|x]; [vm_compute; tauto|]).
    assert (lvv (abs (wall 2)) (S (S (S (S x)))) = false) as ->.
    { unfold lvv, abs. assert (N : length (slots (verts (wall 2))) = 4) by (vm_compute; reflexivity).
      unfold d_has. rewrite (proj2 (nth_error_None _ _)); [reflexivity|]. rewrite N. lia. }
    split; [discriminate|cbn; lia]. }
  split; [reflexivity|]. split.
  { split; [discriminate|]. intros i L. rewrite dev_sum. unfold vsum. destruct i as [|[|[|]]]; [| | |lia]; cbn; lra. }
  split; [vm_compute; reflexivity|]. split; [reflexivity|].
  unfold seg_length, seg_length_squared. cbn [fst snd]. replace ((0 - 3) * (0 - 3) + (0 - 4) * (0 - 4))%R with (5 * 5)%R by ring. apply sqrt_square. lra.
Qed.
