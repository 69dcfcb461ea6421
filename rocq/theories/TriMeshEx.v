(** A pyramid over a pentagon, with the geometry of its base. *)
From Coq Require Import List Arith ZArith Bool Lia.
From Verif Require Import Base DVec DVecFacts Mesh MeshMore Solid Spec MeshSpec MeshEx TopoSpec Tess TriSpec TessProofs BufferSpec MinWeightSpec TriMesh TriMeshSpec.
Import ListNotations.

Definition ex_penta : mesh nat nat nat := get_ok empty_mesh (pyramid 0 7 c0 [0; 10; 20; 30; 40] 50).

(** the corners of the base, counter-clockwise in the order of the face: 0, 4, 3, 2, 1; the apex in the middle *)
Definition penta_pos (f : nat) : option (nat -> Z * Z) :=
  Some (fun v => nth v [(4, 0); (2, -3); (-2, -2); (-2, 2); (2, 3); (0, 0)]%Z (0, 0)%Z).
(** vector2d.rs:12-50 over the integers *)
Definition z_cross (a b c : Z * Z) : Z := ((fst a - fst c) * (snd b - snd c) - (snd a - snd c) * (fst b - fst c))%Z.
Definition z_convex (p prev next : Z * Z) : bool := (0 <? (fst p - fst prev) * (snd next - snd p) - (snd p - snd prev) * (fst next - fst p))%Z.
Definition z_inside (p a b c : Z * Z) : bool :=
  ((0 <? z_cross p a b) && (0 <? z_cross p b c) && (0 <? z_cross p c a) || (z_cross p a b <? 0) && (z_cross p b c <? 0) && (z_cross p c a <? 0))%Z.
Definition z_collinear (p a b : Z * Z) : bool := ((fst b - fst a) * (snd p - snd a) - (snd b - snd a) * (fst p - fst a) =? 0)%Z.
Definition z_ds (a b : Z * Z) : Z := ((fst a - fst b) * (fst a - fst b) + (snd a - snd b) * (snd a - snd b))%Z.
(** fans for the algorithms that are not modelled here *)
Definition z_fan (us : list ((Z * Z) * nat)) : res (list tri3) :=
  if 2 <=? length us then fan_triangulation false true (map snd us) else Panic.
Lemma z_fan_sound : sound z_fan.
Proof.
  intros us T. unfold z_fan. destruct (Nat.leb_spec 2 (length us)); [|discriminate]. intros E. eapply fan_ok; [exact E|]. rewrite map_length. auto.
Qed.
Definition yes (f : nat) := true.
Definition z_triangulate := @triangulate (Z * Z) Z nat penta_pos yes yes yes z_ds Z.leb z_convex z_inside z_collinear (fun _ => 0)
  Nat.add Nat.ltb 0 (fun _ _ => 1) (fun _ _ _ => true) (fun _ => z_fan) (fun _ => z_fan) nat nat nat.

Section Dec.
  Context {VP EP FP : Type}.
  Definition ids_below (m : mesh VP EP FP) : list nat := seq 0 (length (slots (edges m))).
  Lemma live_below (m : mesh VP EP FP) e : lv (abs m) e = true -> In e (ids_below m).
  Proof.
    intros L. apply in_seq. split; [lia|]. cbn. cbn in L. unfold d_has in L. apply nth_error_Some. destruct (nth_error _ e); congruence.
  Qed.
  Lemma closedb_ok (m : mesh VP EP FP) : forallb (fun e => implb (lv (abs m) e) (negb (is_none (fc (abs m) e)))) (ids_below m) = true -> closed (abs m).
  Proof.
    intros H e L E. rewrite forallb_forall in H. specialize (H e (live_below _ _ L)). cbv beta in H. rewrite L, E in H. discriminate H.
  Qed.
  Lemma no_parallelb_ok (m : mesh VP EP FP) : forallb (fun e => forallb (fun e' =>
      implb (lv (abs m) e && lv (abs m) e' && (og (abs m) e =? og (abs m) e') && (og (abs m) (tw (abs m) e) =? og (abs m) (tw (abs m) e'))) (e =? e'))
    (ids_below m)) (ids_below m) = true -> no_parallel (abs m).
  Proof.
    intros H e e' L L' A B. rewrite forallb_forall in H. specialize (H e (live_below _ _ L)). cbv beta in H. rewrite forallb_forall in H.
    specialize (H e' (live_below _ _ L')). cbv beta in H. rewrite L, L', A, B, !Nat.eqb_refl in H. apply Nat.eqb_eq. exact H.
  Qed.
End Dec.

Lemma ear_not_watertight :
  exists (m : mesh nat nat nat) T out, wf m /\ closed (abs m) /\ no_parallel (abs m) /\ num_faces m = 6 /\
    z_triangulate true EarClipping 0 m = Ok (flatten T, out) /\ net (flat_map (@tri_edges nat) T) 0 1 = 2%Z /\ ~ watertight T.
Proof.
  exists ex_penta. exists [(0, 3, 4); (0, 2, 3); (0, 1, 2); (5, 4, 0); (5, 3, 4); (5, 2, 3); (5, 1, 2); (1, 5, 0)], [0; 10; 20; 30; 40; 50].
  split; [apply wfb_ok; vm_compute; reflexivity|]. split; [apply closedb_ok; vm_compute; reflexivity|].
  split; [apply no_parallelb_ok; vm_compute; reflexivity|]. split; [vm_compute; reflexivity|].
  split; [vm_compute; reflexivity|]. split; [vm_compute; reflexivity|].
  intros H. specialize (H 0 1). vm_compute in H. discriminate H.
Qed.
