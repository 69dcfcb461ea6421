(** The common face of two vertices. *)
From Coq Require Import List Arith Lia Bool.
From Verif Require Import Base DVec DVecFacts Mesh MeshMore Spec Rep Cycle Traverse MeshSpec MeshProofs MeshFacts NetProofs SharedFace.
Import ListNotations.
Set Implicit Arguments.
Unset Strict Implicit.
Local Arguments abs : simpl never.

(** A half-edge of the face starts at the vertex. *)
Definition on_face {VP EP FP} (g : graph VP EP FP) (v f : nat) : Prop := exists e, lv g e = true /\ og g e = v /\ fc g e = Some f.

Section SharedFaceProofs.
  Context {VP EP FP : Type}.
  Implicit Types (m : mesh VP EP FP) (c : cfg).

  Lemma g_face_ok m e : wf m -> lv (abs m) e = true -> g_face m e = Ok (fc (abs m) e).
  Proof.
    intros Wm L. destruct (wf_abs Wm) as [R W]. unfold g_face. rewrite (r_face_id R), L. cbn [bind].
    destruct (fc (abs m) e) as [f|] eqn:E; auto. destruct (wf_fc W _ L E) as [LF _].
    destruct (r_face_live R _ LF) as (x & -> & _). reflexivity.
  Qed.

  Lemma has_face_ok c m v f : wf m -> lvv (abs m) v = true ->
    exists b, has_face_at c m v f = Ok b /\ (b = true <-> on_face (abs m) v f).
  Proof.
    intros Wm L. destruct (wf_abs Wm) as [R W]. unfold has_face_at. destruct (edges_out_ok c R W L) as (l & OL & _ & F).
    set (p := fun e => match fc (abs m) e with Some f1 => f =? f1 | None => false end).
    rewrite F with (p := p).
    - cbn [bind]. eexists. split; [reflexivity|]. destruct (find p l) as [e|] eqn:Q; cbn.
      + split; auto. intros _. apply find_some in Q as [I Q]. apply OL in I as [LE O]. exists e. split; auto. split; auto.
        unfold p in Q. destruct (fc (abs m) e); [|discriminate]. apply Nat.eqb_eq in Q. congruence.
      + split; [discriminate|]. intros (e & LE & O & FE). assert (I : In e l) by (apply OL; auto).
        apply (find_none _ _ Q) in I. unfold p in I. rewrite FE, Nat.eqb_refl in I. discriminate.
    - intros x I. apply OL in I as [LX _]. rewrite (g_face_ok Wm LX). reflexivity.
  Qed.

  Lemma shared_face_ok c m v0 v1 : wf m -> lvv (abs m) v0 = true -> lvv (abs m) v1 = true ->
    exists o, shared_face c m v0 v1 = Ok o /\
      match o with
      | Some f => lvf (abs m) f = true /\ on_face (abs m) v0 f /\ on_face (abs m) v1 f
      | None => forall f, ~ (on_face (abs m) v0 f /\ on_face (abs m) v1 f)
      end.
  Proof.
    intros Wm L0 L1. destruct (wf_abs Wm) as [R W]. unfold shared_face.
    destruct (r_vertex_live R _ L0) as (x0 & -> & _). destruct (r_vertex_live R _ L1) as (x1 & -> & _). cbn [bind].
    destruct (edges_out_ok c R W L0) as (l & OL & _ & F).
    set (p := fun e => match fc (abs m) e with Some f0 => match has_face_at c m v1 f0 with Ok b => b | _ => false end | None => false end).
    rewrite F with (p := p).
    - cbn [bind]. destruct (find p l) as [e|] eqn:Q.
      + apply find_some in Q as [I Q]. apply OL in I as [LE O]. rewrite (g_face_ok Wm LE). eexists. split; [reflexivity|].
        unfold p in Q. destruct (fc (abs m) e) as [f|] eqn:FE; [|discriminate].
        destruct (has_face_ok c f Wm L1) as (b & HB & IB). rewrite HB in Q. split; [apply (wf_fc W _ LE FE)|].
        split; [exists e; auto|]. apply IB. exact Q.
      + eexists. split; [reflexivity|]. intros f ((e & LE & O & FE) & H1). assert (I : In e l) by (apply OL; auto).
        apply (find_none _ _ Q) in I. unfold p in I. rewrite FE in I. destruct (has_face_ok c f Wm L1) as (b & HB & IB).
        rewrite HB in I. apply IB in H1. congruence.
    - intros x I. apply OL in I as [LX _]. rewrite (g_face_ok Wm LX). unfold p. cbn [bind]. destruct (fc (abs m) x) as [f|]; auto.
      destruct (has_face_ok c f Wm L1) as (b & -> & _). reflexivity.
  Qed.

  Lemma shared_face_panics c m v0 v1 : wf m -> (lvv (abs m) v0 = false \/ lvv (abs m) v1 = false) -> shared_face c m v0 v1 = Panic.
  Proof.
    intros Wm H. destruct (wf_abs Wm) as [R W]. unfold shared_face. destruct (lvv (abs m) v0) eqn:L0.
    - destruct (r_vertex_live R _ L0) as (x0 & -> & _). cbn [bind]. destruct H as [H|H]; [discriminate|].
      rewrite (r_vertex_dead R _ H). reflexivity.
    - rewrite (r_vertex_dead R _ L0). reflexivity.
  Qed.
End SharedFaceProofs.
