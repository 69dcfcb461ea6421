(** Ear clipping and the winding of the polygon. *)
From Coq Require Import List Arith ZArith Lia Bool.
From Verif Require Import Base TriSpec TriFacts Tess TessProofs BufferProofs.
Import ListNotations.
Set Implicit Arguments.
Unset Strict Implicit.

Lemma cnt_swap (T : list (nat * nat * nat)) a b :
  cnt (flat_map (@tri_edges nat) (map (@flip_tri nat) T)) a b = cnt (flat_map (@tri_edges nat) T) b a.
Proof.
  unfold cnt. f_equal. induction T as [|[[x y] z] T IH]; [reflexivity|]. cbn [map flat_map]. rewrite !filter_app, !app_length, IH. f_equal.
  cbn. destruct (z =? a), (y =? b), (y =? a), (x =? b), (x =? a), (z =? b); reflexivity.
Qed.
Lemma net_flip (T : list (nat * nat * nat)) a b :
  net (flat_map (@tri_edges nat) (map (@flip_tri nat) T)) a b = (- net (flat_map (@tri_edges nat) T) a b)%Z.
Proof. unfold net. rewrite !cnt_swap. lia. Qed.

Lemma cnt_zero es a b : ~ In (a, b) es -> cnt es a b = 0%Z.
Proof.
  intros H. unfold cnt. replace (filter _ es) with (@nil (nat * nat)); [reflexivity|]. symmetry.
  induction es as [|[x y] es IH]; [reflexivity|]. cbn. destruct (Nat.eqb_spec x a), (Nat.eqb_spec y b); cbn; subst; try (apply IH; intros I; apply H; right; auto).
  exfalso. apply H. left. auto.
Qed.
Lemma first_edge (a b c : nat) r : NoDup (a :: b :: c :: r) -> (0 < net (poly_edges (a :: b :: c :: r)) a b)%Z.
Proof.
  intros N. unfold net. rewrite (@cnt_zero _ b a).
  - unfold cnt. cbn. rewrite !Nat.eqb_refl. cbn. lia.
  - inversion N as [|? ? N1 N']; subst. inversion N' as [|? ? N2 _]; subst. change (poly_edges (a :: b :: c :: r)) with ((a, b) :: (b, c) :: combine (c :: r) (r ++ [a])). intros [E|[E|I]].
    + injection E as -> _. apply N1. left. auto.
    + injection E as ->. apply N1. right. left. auto.
    + apply N2. apply in_combine_l in I. auto.
Qed.

Lemma ear_winding (P : Type) cvx ins col rnd dbg randomize (vs : list (P * nat)) T : 3 <= length vs -> NoDup (map snd vs) ->
  ear_clipping_direct cvx ins col rnd dbg randomize vs = Ok T -> ~ covers (map snd vs) T.
Proof.
  intros L N H C. apply ear_ok in H; auto. apply triangulates_mirror in H. rewrite rev_involutive in H.
  apply triangulates_covers in H. destruct vs as [|[p a] [|[q b] [|[r c] vs]]]; cbn in L; try lia. cbn in N, C, H.
  pose proof (first_edge N) as F. specialize (C a b). specialize (H a b). rewrite net_flip in H. lia.
Qed.
