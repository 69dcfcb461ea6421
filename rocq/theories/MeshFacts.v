(** Traversal facts restated for consistent meshes. *)
From Coq Require Import List Arith Lia Bool.
From Verif Require Import Base DVec DVecFacts Mesh Spec Rep Cycle Traverse MeshSpec MeshMore MeshProofs CheckProofs MeshProofs2 MeshTotal.
Import ListNotations.
Set Implicit Arguments.
Unset Strict Implicit.

Section MF.
  Context {VP EP FP : Type}.
  Implicit Types (m : mesh VP EP FP) (c : cfg).

  Lemma check_accepts m : wf m ->
    (exists b, check m = Ok b) /\
    ((forall f l, lvf (abs m) f = true -> loop (abs m) (fe (abs m) f :: l) -> 3 <= length (fe (abs m) f :: l)) ->
     (forall e, lv (abs m) e = true -> fc (abs m) e <> None \/ fc (abs m) (tw (abs m) e) <> None) ->
     check m = Ok true).
  Proof.
    intros Wm. split; [apply check_wf; auto|]. intros A B. pose proof (wf_doc_inv Wm A B) as D.
    destruct Wm as (X & Y & Z & _). apply check_iff; auto.
  Qed.

  Lemma face_traversal m e : wf m -> lv (abs m) e = true ->
    exists t, loop (abs m) (e :: t) /\ edges_face m e = Ok (e :: t) /\ edges_face_back m e = Ok (e :: rev t).
  Proof.
    intros Wm L. destruct (wf_abs Wm) as [R W]. destruct (loop_exists R W L) as [t C]. exists t.
    split; [split; auto; intros x I; eapply loop_live; eauto|].
    split; [apply (edges_face_ok R W)|apply (edges_face_back_ok R W)]; auto.
  Qed.

  Lemma face_edges_complete m f : wf m -> lvf (abs m) f = true ->
    exists l, face_edges m f = Ok l /\ NoDup l /\ forall x, In x l <-> lv (abs m) x = true /\ fc (abs m) x = Some f.
  Proof.
    intros Wm L. destruct (wf_abs Wm) as [R W]. destruct (wf_fe W _ L) as [LE FE].
    destruct (loop_exists R W LE) as [t C].
    assert (LP : loop (abs m) (fe (abs m) f :: t)) by (split; auto; intros x I; eapply loop_live; eauto).
    exists (fe (abs m) f :: t). split; [apply face_num_edges_ok; auto|]. split; [eapply cycle_nodup; eauto|].
    intros x. split.
    - intros I. split; [apply LP; auto|]. rewrite (loop_fc W C LE I). auto.
    - intros [LX FX]. apply (cycle_reach _ C). apply (wf_fc W _ LX FX).
  Qed.

  Lemma vertex_wheel c m v : wf m -> lvv (abs m) v = true ->
    exists l, edges_out c m v = Ok l /\ NoDup l /\
      (forall x, In x l <-> lv (abs m) x = true /\ og (abs m) x = v) /\
      edges_in c m v = Ok (map (tw (abs m)) l) /\ degree c m v = Ok (length l) /\
      v_neighbors c m v = Ok (map (fun x => og (abs m) (tw (abs m) x)) l).
  Proof.
    intros Wm L. destruct (wf_abs Wm) as [R W]. destruct (edges_in_ok c R W L) as (l & [ND OL] & E & EI & _).
    exists l. split; auto. split; auto. split; auto. split; auto. unfold degree, v_neighbors. rewrite E. cbn [bind].
    split; auto. apply mapM_ok. intros x I. apply OL in I as [LX _]. rewrite (r_gtarget R), LX, (wf_nx W x LX).
    cbn [andb]. rewrite (wf_og W) by (apply W; auto). rewrite (wf_ognx W); auto.
  Qed.

  Lemma shared_edge_spec c m v w : wf m -> lvv (abs m) v = true ->
    exists o, shared_edge c m v w = Ok o /\
      match o with
      | Some e => lv (abs m) e = true /\ og (abs m) e = v /\ og (abs m) (tw (abs m) e) = w
      | None => forall e, lv (abs m) e = true -> og (abs m) e = v -> og (abs m) (tw (abs m) e) <> w
      end.
  Proof. intros Wm L. destruct (wf_abs Wm) as [R W]. exact (@shared_edge_ok _ _ _ m [] [] [] (abs m) c R W v w L). Qed.

  Lemma c08_effect c m i y y1 y2 m' v e1 e2 : wf m -> lv (abs m) i = true -> fc (abs m) i = None ->
    add_vertex_via_edge c m i (nx (abs m) i) y y1 y2 = Ok (m', v, e1, e2) ->
    wf m' /\ vertex_added (abs m) (abs m') i v e1 e2 y y1 y2.
  Proof.
    intros Wm L F H. destruct (spec_add_vertex_via_edge Wm (or_intror L) (fun _ => conj eq_refl F) H) as (A & _ & B). auto.
  Qed.
End MF.
