(** Solids all of whose faces are triangles. *)
From Coq Require Import List Arith Lia Bool.
From Verif Require Import Base DVec DVecFacts Mesh Spec MeshSpec MeshProofs MeshMore BuildSpec SolidSpec SolidProofs SphereProofs SubdivSpec.
Import ListNotations.
Set Implicit Arguments.
Unset Strict Implicit.
Local Arguments abs : simpl never.

Section SolidTri.
  Context {VP EP FP : Type}.
  Implicit Types (m : mesh VP EP FP).

  (** Three different indices below [n]. *)
  Definition tri_poly (n : nat) (l : list nat) : Prop :=
    match l with [i; j; k] => i < n /\ j < n /\ k < n /\ i <> j /\ j <> k /\ k <> i | _ => False end.
  Definition tri_polyb (n : nat) (l : list nat) : bool :=
    match l with [i; j; k] => (i <? n) && (j <? n) && (k <? n) && negb (i =? j) && negb (j =? k) && negb (k =? i) | _ => false end.
  Lemma tri_polyb_ok n ls : forallb (tri_polyb n) ls = true -> forall l, In l ls -> tri_poly n l.
  Proof.
    rewrite forallb_forall. intros H l I. specialize (H l I). destruct l as [|i [|j [|k [|? ?]]]]; try discriminate. unfold tri_polyb in H. unfold tri_poly.
    rewrite !andb_true_iff, !negb_true_iff, !Nat.ltb_lt, !Nat.eqb_neq in H. tauto.
  Qed.

  Lemma forall2_in A B (R : A -> B -> Prop) l l' : Forall2 R l l' -> forall x, In x l -> exists y, In y l' /\ R x y.
  Proof. induction 1 as [|x y l l' R1 F IH]; intros z I; [destruct I|]. destruct I as [<-|I]; [exists y; split; cbn; auto|]. destruct (IH z I) as (w & A1 & A2). exists w. split; cbn; auto. Qed.

  Lemma nodup_nth (vs : list nat) i j : NoDup vs -> i < length vs -> j < length vs -> i <> j -> nth i vs 0 <> nth j vs 0.
  Proof. intros ND A B N E. apply N. apply (proj1 (NoDup_nth vs 0) ND); auto. Qed.

  (** Every half-edge lies in one of the listed triangles, at one of three places. *)
  Lemma solid_at m y pts polys ne : wf m -> solid (abs m) y pts polys ne -> (forall l, In l polys -> tri_poly (length pts) l) ->
    exists vs, exactly (lvv (abs m)) vs /\ map (vp (abs m)) vs = map Some pts /\
      forall e, lv (abs m) e = true -> fc (abs m) e <> None /\ exists i j k, In [i; j; k] polys /\
        exists a b d, nx (abs m) a = b /\ nx (abs m) b = d /\ nx (abs m) d = a /\ NoDup [a; b; d] /\
          og (abs m) a = nth i vs 0 /\ og (abs m) b = nth j vs 0 /\ og (abs m) d = nth k vs 0 /\ (e = a \/ e = b \/ e = d).
  Proof.
    intros Wm (vs & fs & es & XV & PV & XF & FA & XE & _ & CL) TP. exists vs. split; auto. split; auto.
    pose proof (wf_abs Wm) as [_ W].
    intros e L. split; [apply CL; auto|]. destruct (fc (abs m) e) as [f|] eqn:Q; [|destruct (CL e L Q)].
    assert (If : In f fs) by (apply XF; apply (wf_fc W _ L Q)).
    destruct (forall2_in FA If) as (l' & I & (es' & FI & OG)). apply in_map_iff in I as (l & <- & I).
    pose proof (TP l I) as Tl. destruct l as [|i [|j [|k [|? ?]]]]; try contradiction.
    destruct es' as [|a [|b [|d [|? ?]]]]; try discriminate. cbn [map] in OG. injection OG as O1 O2 O3.
    exists i, j, k. split; auto. exists a, b, d.
    destruct FI as (LF & FP0 & (LL & ND & CH & LA) & FC). cbn in CH, LA.
    assert (FI : face_is (abs m) f [a; b; d] y false).
    { split; auto. split; auto. split; auto. split; auto. split; auto. }
    pose proof (face_all Wm FI L Q) as IE. cbn in IE. destruct CH as (C1 & C2 & _). repeat split; auto. intuition.
  Qed.

  Lemma solid_triangles m y pts polys ne : wf m -> solid (abs m) y pts polys ne -> (forall l, In l polys -> tri_poly (length pts) l) ->
    triangles (abs m).
  Proof.
    intros Wm S TP. pose proof (wf_abs Wm) as [_ W]. destruct (solid_at Wm S TP) as (vs & XV & PV & H).
    assert (LV : length vs = length pts) by (pose proof (f_equal (@length _) PV) as X; rewrite !map_length in X; auto).
    assert (X : forall e, lv (abs m) e = true -> fc (abs m) e <> None /\ nx (abs m) (nx (abs m) (nx (abs m) e)) = e /\
      nx (abs m) e <> e /\ og (abs m) (nx (abs m) e) <> og (abs m) e).
    { intros e L. destruct (H e L) as (A & i & j & k & I & a & b & d & N1 & N2 & N3 & ND & O1 & O2 & O3 & E). split; auto.
      destruct (TP _ I) as (B1 & B2 & B3 & D1 & D2 & D3). rewrite <- LV in *.
      pose proof (nodup_nth (proj1 XV) B1 B2 D1) as X1. pose proof (nodup_nth (proj1 XV) B2 B3 D2) as X2. pose proof (nodup_nth (proj1 XV) B3 B1 D3) as X3.
      inversion ND as [|? ? M1 ND1]; subst. inversion ND1 as [|? ? M2 _]; subst. cbn in M1, M2.
      destruct E as [-> | [-> | ->]]; rewrite ?N3; (split; [auto|split; [intuition congruence|congruence]]). }
    split; intros e L; destruct (X e L) as (A & B & C & D); auto.
    rewrite <- (wf_ognx W _ L). auto.
  Qed.

  Lemma solid_every_face m y pts polys ne (P : VP -> VP -> VP -> Prop) : wf m -> solid (abs m) y pts polys ne ->
    (forall l, In l polys -> tri_poly (length pts) l) -> (forall p q r, P p q r -> P q r p) ->
    (forall i j k p q r, In [i; j; k] polys -> nth_error pts i = Some p -> nth_error pts j = Some q -> nth_error pts k = Some r -> P p q r) ->
    every_face P (abs m).
  Proof.
    intros Wm S TP ROT HP. destruct (solid_at Wm S TP) as (vs & XV & PV & H).
    assert (NE : forall i p, i < length pts -> vp (abs m) (nth i vs 0) = Some p -> nth_error pts i = Some p).
    { assert (LV : length vs = length pts) by (pose proof (f_equal (@length _) PV) as X; rewrite !map_length in X; auto).
      intros i p B E. pose proof (f_equal (fun l => nth_error l i) PV) as X. cbv beta in X. rewrite !nth_error_map in X.
      rewrite (nth_error_nth' vs 0) in X by lia. cbn in X. rewrite E in X. destruct (nth_error pts i); cbn in X; congruence. }
    intros h p q r L Ep Eq Er. destruct (H h L) as (A & i & j & k & I & a & b & d & N1 & N2 & N3 & ND & O1 & O2 & O3 & E).
    destruct (TP _ I) as (B1 & B2 & B3 & D1 & D2 & D3).
    assert (Q : forall p q r, vp (abs m) (og (abs m) a) = Some p -> vp (abs m) (og (abs m) b) = Some q -> vp (abs m) (og (abs m) d) = Some r -> P p q r).
    { intros p' q' r' F1 F2 F3. rewrite O1 in F1. rewrite O2 in F2. rewrite O3 in F3. apply (HP i j k); auto. }
    destruct E as [-> | [-> | ->]].
    - rewrite N1 in Eq, Er. rewrite N2 in Er. apply Q; auto.
    - rewrite N2 in Eq, Er. rewrite N3 in Er. apply ROT, Q; auto.
    - rewrite N3 in Eq, Er. rewrite N1 in Er. apply ROT, ROT, Q; auto.
  Qed.
End SolidTri.
