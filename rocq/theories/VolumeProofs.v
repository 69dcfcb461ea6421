(** Triangulations preserve areas and volumes. *)
From Coq Require Import List Arith ZArith Lia Bool Reals Lra RealField Setoid Ring_theory Permutation.
From Verif Require Import Base Mesh Spec MeshSpec TopoSpec TriSpec TriFacts AlgSpec AlgProofs Sphere SphereSpec TriMeshSpec VolumeSpec.
Import ListNotations.
Set Implicit Arguments.
Unset Strict Implicit.
Local Open Scope R_scope.

Ltac vec3s := repeat match goal with v : vec3 |- _ => destruct v as [[? ?] ?] end; unfold zero3 in *; cbn in *.

(** ** vectors *)
Lemma vdot_add u a b : vdot u (vadd a b) = vdot u a + vdot u b.
Proof. vec3s. ring. Qed.
Lemma vdot_mul u a s : vdot u (vmul a s) = vdot u a * s.
Proof. vec3s. ring. Qed.
Lemma vdot_zero u : vdot u zero3 = 0.
Proof. vec3s. ring. Qed.
Lemma vdot_sub_l a b u : vdot (vsub a b) u = vdot a u - vdot b u.
Proof. vec3s. ring. Qed.
Lemma vdot_sub_r a b u : vdot u (vsub a b) = vdot u a - vdot u b.
Proof. vec3s. ring. Qed.
Lemma vdot_cross u a b : vdot u (vcross a b) = det3 u a b.
Proof. vec3s. ring. Qed.
Lemma vdot_all a b : (forall u, vdot u a = vdot u b) -> a = b.
Proof.
  intros H. pose proof (H (1, 0, 0)). pose proof (H (0, 1, 0)). pose proof (H (0, 0, 1)). clear H. vec3s. f_equal; [f_equal|]; lra.
Qed.
Lemma vdot_sum u l : vdot u (vsum3 l) = rsum (map (vdot u) l).
Proof. induction l as [|a l IH]; cbn [vsum3 rsum fold_right map]; [apply vdot_zero|]. rewrite vdot_add. f_equal. exact IH. Qed.
Lemma rsum_app l l' : rsum (l ++ l') = rsum l + rsum l'.
Proof. unfold rsum. induction l as [|a l IH]; cbn; [ring|]. rewrite IH. ring. Qed.
Lemma rsum_mul l s : rsum (map (fun x => x * s) l) = rsum l * s.
Proof. unfold rsum. induction l as [|a l IH]; cbn; [ring|]. rewrite IH. ring. Qed.

Notation RE := (@eq_equivalence R). Notation RX := (Eq_ext Rplus Rmult Ropp). Notation RT := RTheory.

Lemma vdot_area_vec u ps : vdot u (area_vec ps) = / 2 * esum 0 Rplus (det3 u) (poly_edges ps).
Proof.
  unfold area_vec. rewrite vdot_mul, vdot_sum, map_map. rewrite Rmult_comm. f_equal.
  induction (poly_edges ps) as [|[a b] l IH]; cbn [map rsum fold_right esum fst snd]; [reflexivity|]. rewrite vdot_cross. f_equal. exact IH.
Qed.
Lemma det3_anti u a b : det3 u b a = - det3 u a b.
Proof. vec3s. ring. Qed.
Lemma det3_same u a : det3 u a a = 0.
Proof. vec3s. ring. Qed.

Section Chains.
  Variable pos : nat -> vec3.
  Notation w := (fun u x y => det3 u (pos x) (pos y)).
  Lemma vdot_area_of u T : vdot u (area_of pos T) = / 2 * esum 0 Rplus (w u) (flat_map (@tri_edges nat) T).
  Proof.
    unfold area_of. rewrite vdot_sum, map_map. induction T as [|[[a b] c] T IH]; cbn [map rsum fold_right flat_map esum tri_edges app]; [ring|].
    unfold rsum in IH. rewrite IH. unfold tri_area. rewrite vdot_mul, vdot_cross.
    generalize (pos a) (pos b) (pos c) (esum 0 Rplus (w u) (flat_map (@tri_edges nat) T)). intros. vec3s. field.
  Qed.
  Lemma chain_area T es : (forall a b, net (flat_map (@tri_edges nat) T) a b = net es a b) ->
    forall u, vdot u (area_of pos T) = / 2 * esum 0 Rplus (w u) es.
  Proof.
    intros N u. rewrite vdot_area_of. f_equal.
    assert (AN : forall x y, w u y x = - w u x y) by (intros; apply det3_anti).
    assert (H : esum 0 Rplus (w u) (flat_map (@tri_edges nat) T ++ map (fun e => (snd e, fst e)) es) = 0).
    { apply (covers_zero RE RX RT AN (fun x => det3_same u (pos x)) (le_n _)). intros a b.
      rewrite net_app, net_swap, N. lia. }
    rewrite (esum_app RE RX RT), (esum_flip RE RX RT AN) in H. lra.
  Qed.
  Lemma covers_area l T : covers l T -> area_of pos T = area_vec (map pos l).
  Proof.
    intros C. apply vdot_all. intros u. rewrite (chain_area C), vdot_area_vec. f_equal. rewrite poly_edges_map, esum_map. reflexivity.
  Qed.
  Lemma watertight_area T : watertight T -> area_of pos T = zero3.
  Proof.
    intros C. apply vdot_all. intros u. rewrite (@chain_area T []); [|intros a b; rewrite C; reflexivity]. cbn. rewrite vdot_zero. ring.
  Qed.

  Lemma volume_app o T T' : volume_of pos o (T ++ T') = volume_of pos o T + volume_of pos o T'.
  Proof. unfold volume_of. rewrite map_app. apply rsum_app. Qed.
  (** the tip can be moved along the area vector *)
  Lemma move_tip o o' T : volume_of pos o T = volume_of pos o' T + / 3 * vdot (vsub o' o) (area_of pos T).
  Proof.
    induction T as [|[[a b] c] T IH].
    - unfold volume_of, area_of. cbn [map rsum vsum3 fold_right]. rewrite vdot_zero. ring.
    - change ((a, b, c) :: T) with ([(a, b, c)] ++ T). rewrite !volume_app, IH. unfold area_of. cbn [app map vsum3 fold_right]. rewrite vdot_add.
      unfold volume_of at 1 3. cbn [map rsum fold_right]. fold (vsum3 (map (fun t => let '(a, b, c) := t in tri_area (pos a) (pos b) (pos c)) T)).
      set (Z := vdot (vsub o' o) (vsum3 _)). set (V := volume_of pos o' T). clearbody Z V. unfold tri_volume, tri_area.
      generalize (pos a) (pos b) (pos c). intros. vec3s. field.
  Qed.
  Lemma watertight_tip T o o' : watertight T -> volume_of pos o T = volume_of pos o' T.
  Proof. intros C. rewrite (move_tip o o'), (watertight_area C), vdot_zero. ring. Qed.
End Chains.

(** ** plane polygons *)
Lemma det3_expand n a b c :
  vmul n (det3 a b c) = vadd (vadd (vmul (vcross b c) (vdot n a)) (vmul (vcross c a) (vdot n b))) (vmul (vcross a b) (vdot n c)).
Proof. vec3s. f_equal; [f_equal|]; ring. Qed.
Lemma det3_flat n a b c : n <> zero3 -> vdot n a = 0 -> vdot n b = 0 -> vdot n c = 0 -> det3 a b c = 0.
Proof.
  intros N A B C. pose proof (det3_expand n a b c) as E. rewrite A, B, C in E.
  assert (Z : vmul n (det3 a b c) = zero3).
  { rewrite E. generalize (vcross b c) (vcross c a) (vcross a b). intros. vec3s. f_equal; [f_equal|]; ring. }
  destruct (Req_dec (det3 a b c) 0) as [|D]; auto. exfalso. apply N. destruct n as [[x y] z]. unfold vmul, zero3 in *.
  injection Z as Z1 Z2 Z3. apply Rmult_integral in Z1, Z2, Z3. f_equal; [f_equal|]; tauto.
Qed.
Lemma plane_flat n k ps : n <> zero3 -> (forall p, In p ps -> vdot n p = k) -> flat ps.
Proof.
  intros N P a b c d A B C D. unfold tri_volume. rewrite (@det3_flat n); auto; [field| | |]; rewrite vdot_sub_r, !P by auto; ring.
Qed.
Lemma tri_flat p q r : flat [p; q; r].
Proof.
  intros a b c d A B C D. unfold tri_volume. enough (E : det3 (vsub b a) (vsub c a) (vsub d a) = 0) by (rewrite E; field).
  destruct A as [<-|[<-|[<-|[]]]], B as [<-|[<-|[<-|[]]]], C as [<-|[<-|[<-|[]]]], D as [<-|[<-|[<-|[]]]]; vec3s; ring.
Qed.
(** seen from a point of the plane there is no volume *)
Lemma flat_volume pos ps o T : flat ps -> In o ps -> (forall a b c, In (a, b, c) T -> In (pos a) ps /\ In (pos b) ps /\ In (pos c) ps) -> volume_of pos o T = 0.
Proof.
  intros F O. induction T as [|[[a b] c] T IH]; intros H; [reflexivity|].
  change ((a, b, c) :: T) with ([(a, b, c)] ++ T). rewrite volume_app, IH by (intros; apply H; right; auto).
  destruct (H a b c (or_introl eq_refl)) as (A & B & C). unfold volume_of. cbn [map rsum fold_right]. rewrite F by auto. ring.
Qed.
Lemma tri_corners (l : list nat) T : triangulates l T -> forall a b c, In (a, b, c) T -> In a l /\ In b l /\ In c l.
Proof.
  intros (a0 & l0 & b0 & -> & H). induction H as [a b|a l1 k l2 b T1 T2 H1 IH1 H2 IH2|a l b T T' P H IH|a l b x y z T H IH]; intros p q r I.
  - destruct I.
  - assert (S1 : forall v, In v (a :: l1 ++ [k]) -> In v (a :: (l1 ++ k :: l2) ++ [b])).
    { intros v [->|J]; [left; auto|right]. rewrite !in_app_iff in *. cbn in *. tauto. }
    assert (S2 : forall v, In v (k :: l2 ++ [b]) -> In v (a :: (l1 ++ k :: l2) ++ [b])).
    { intros v J. right. rewrite <- app_assoc. apply in_or_app. right. exact J. }
    destruct I as [E|I].
    + injection E as <- <- <-. split; [left; auto|]. split; [apply S1; right; apply in_or_app; right; left; auto|apply S2; right; apply in_or_app; right; left; auto].
    + apply in_app_or in I as [I|I]; [destruct (IH1 _ _ _ I) as (A & B & C)|destruct (IH2 _ _ _ I) as (A & B & C)]; auto.
  - apply IH. eapply Permutation_in; [apply Permutation_sym; eauto|auto].
  - destruct I as [E|I]; [|apply IH; right; auto]. injection E as <- <- <-. destruct (IH x y z (or_introl eq_refl)) as (A & B & C). auto.
Qed.

Section Polygon.
  Variable pos : nat -> vec3.
  Lemma polygon_area l T : triangulates l T -> area_of pos T = area_vec (map pos l).
  Proof. intros H. apply covers_area, triangulates_covers, H. Qed.
  Lemma polygon_volume l T o p : triangulates l T -> flat (map pos l) -> In p (map pos l) ->
    volume_of pos o T = / 3 * vdot (vsub p o) (area_vec (map pos l)).
  Proof.
    intros H F I. rewrite (move_tip pos o p), (flat_volume F I).
    - rewrite (polygon_area H). ring.
    - intros a b c J. destruct (tri_corners H J) as (A & B & C). repeat split; apply in_map; auto.
  Qed.
  Lemma polygon_cone l T o : triangulates l T -> flat (map pos l) -> volume_of pos o T = cone_volume o (map pos l).
  Proof.
    intros H F. apply polygon_volume; auto. destruct H as (a & l' & b & -> & _). left. reflexivity.
  Qed.
End Polygon.
