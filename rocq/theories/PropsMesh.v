(** Properties C03-C13, C55, C56: consistency, traversal and the builder operations. *)
From Coq Require Import List Arith Lia Bool Permutation.
From Verif Require Import Base DVec DVecFacts Mesh Spec MeshSpec MeshMore MeshEx
  Cycle Traverse MeshProofs CheckProofs MeshProofs2 MeshTotal MeshFacts.
Import ListNotations.

(** C03. Whatever a client builds from the empty mesh in a debug build without a panic, keeping
    the preconditions [bpre] that a debug build does not check, is consistent. *)
Theorem C03_reachable_consistent :
  forall (VP EP FP : Type) (m : mesh VP EP FP), reachable m -> wf m.
Proof. exact @reachable_wf. Qed.
Print Assumptions C03_reachable_consistent.

(** Each single operation keeps consistency. *)
Theorem C03_step_consistent :
  forall (VP EP FP : Type) (c : cfg) (m : mesh VP EP FP) o m',
    wf m -> dbg c = true -> bpre (abs m) o -> bstep c m o = Ok m' -> wf m'.
Proof. exact @bstep_wf. Qed.
Print Assumptions C03_step_consistent.

Example C03_example : exists m : mesh nat nat nat, brun c0 empty_mesh ex_ops = Ok m /\ reachable m.
Proof.
  eexists. split; [vm_compute; reflexivity|]. exists c0, ex_ops.
  split; [reflexivity|]. split; [|vm_compute; reflexivity]. unfold ex_ops.
  do 7 (split; [vm_compute; intuition discriminate|intros ? H; vm_compute in H; injection H as <-]). exact I.
Qed.

(** Without the preconditions a debug build silently produces inconsistent meshes:
    [add_vertex_via_edge] on the inner side of a face, *)
Theorem C03_via_edge_in_face_refuted :
  exists (m : mesh nat nat nat) o m', wf m /\ dbg c0 = true /\ bstep c0 m o = Ok m' /\ ~ wf m'.
Proof.
  exists ex_square, (BViaEdge 1 6 99 0 0). eexists. split; [apply wfb_ok; vm_compute; reflexivity|].
  split; [reflexivity|]. split; [vm_compute; reflexivity|].
  intros (_ & _ & _ & W). pose proof (wf_fcnx W 1 eq_refl) as H. vm_compute in H. discriminate.
Qed.
Print Assumptions C03_via_edge_in_face_refuted.

(** with half-edges that meet at a vertex but are not consecutive, *)
Theorem C03_via_edge_not_consecutive_refuted :
  exists (m : mesh nat nat nat) i o m', wf m /\ fc (abs m) i = None /\ fc (abs m) o = None /\
    bstep c0 m (BViaEdge i o 99 0 0) = Ok m' /\ ~ wf m'.
Proof.
  exists ex_loop4, 0, 1. eexists. split; [apply wfb_ok; vm_compute; reflexivity|].
  do 2 (split; [reflexivity|]). split; [vm_compute; reflexivity|].
  intros (_ & _ & _ & W). pose proof (wf_nxpv W 2 eq_refl) as H. vm_compute in H. discriminate.
Qed.
Print Assumptions C03_via_edge_not_consecutive_refuted.

(** [insert_edge] across a face, *)
Theorem C03_insert_edge_in_face_refuted :
  exists (m : mesh nat nat nat) o m', wf m /\ bstep c0 m o = Ok m' /\ ~ wf m'.
Proof.
  exists ex_square, (BInsertEdge 1 0 5 0). eexists. split; [apply wfb_ok; vm_compute; reflexivity|].
  split; [vm_compute; reflexivity|].
  intros (_ & _ & _ & W). pose proof (wf_fcnx W 1 eq_refl) as H. vm_compute in H. discriminate.
Qed.
Print Assumptions C03_insert_edge_in_face_refuted.

(** [insert_edge_between] a vertex and itself, *)
Theorem C03_self_loop_refuted :
  exists (m : mesh nat nat nat) o m', wf m /\ bstep c0 m o = Ok m' /\ ~ wf m'.
Proof.
  exists ex_mix, (BBetween 3 0 3 0). eexists. split; [apply wfb_ok; vm_compute; reflexivity|].
  split; [vm_compute; reflexivity|].
  intros (_ & _ & _ & W). destruct (wf_wheel W 7 eq_refl) as (e0 & H & R). vm_compute in H. injection H as <-.
  assert (X : forall x, reach (wheel (abs (get_ok ex_mix (bstep c0 ex_mix (BBetween 3 0 3 0))))) 6 x -> x = 6).
  { intros x Q. induction Q; auto. subst. vm_compute. reflexivity. }
  apply X in R. discriminate.
Qed.
Print Assumptions C03_self_loop_refuted.

(** flipping an edge that ends in a dangling vertex. *)
Theorem C03_flip_dangling_refuted :
  exists (m : mesh nat nat nat) e m', wf m /\ lv (abs m) e = true /\ flip_edge m e = Ok m' /\ ~ wf m'.
Proof.
  exists ex_path, 0. eexists. split; [apply wfb_ok; vm_compute; reflexivity|].
  split; [reflexivity|]. split; [vm_compute; reflexivity|].
  intros (_ & _ & _ & W). pose proof (wf_nxpv W 2 eq_refl) as H. vm_compute in H. discriminate.
Qed.
Print Assumptions C03_flip_dangling_refuted.

(** C04. The checker accepts exactly the meshes with the documented invariants, *)
Theorem C04_check_iff_documented :
  forall (VP EP FP : Type) (m : mesh VP EP FP),
    dv_ok (edges m) [] -> dv_ok (verts m) [] -> dv_ok (faces m) [] ->
    (check m = Ok true <-> doc_inv (abs m)).
Proof. exact @check_iff. Qed.
Print Assumptions C04_check_iff_documented.

(** never runs forever, *)
Theorem C04_check_terminates :
  forall (VP EP FP : Type) (m : mesh VP EP FP),
    dv_ok (edges m) [] -> dv_ok (verts m) [] -> dv_ok (faces m) [] -> check m <> Diverge.
Proof. exact @check_terminates. Qed.
Print Assumptions C04_check_terminates.

(** never panics on consistent meshes, and accepts those whose faces have at least three edges and
    whose edges have a face on one side. *)
Theorem C04_check_accepts :
  forall (VP EP FP : Type) (m : mesh VP EP FP), wf m ->
    (exists b, check m = Ok b) /\
    ((forall f l, lvf (abs m) f = true -> loop (abs m) (fe (abs m) f :: l) -> 3 <= length (fe (abs m) f :: l)) ->
     (forall e, lv (abs m) e = true -> fc (abs m) e <> None \/ fc (abs m) (tw (abs m) e) <> None) ->
     check m = Ok true).
Proof. exact @check_accepts. Qed.
Print Assumptions C04_check_accepts.

Example C04_example : wf ex_square /\ doc_inv (abs ex_square) /\ check ex_square = Ok true /\
  dv_ok (edges ex_square) [] /\ dv_ok (verts ex_square) [] /\ dv_ok (faces ex_square) [].
Proof.
  assert (W : wf ex_square) by (apply wfb_ok; vm_compute; reflexivity).
  split; [exact W|]. destruct W as (A & B & C & _). split; [|intuition].
  apply check_iff; auto.
Qed.

(** The checker does not imply consistency: two separate loops may carry the same face, *)
Theorem C04_check_misses_shared_face_refuted :
  exists m : mesh nat nat nat, check m = Ok true /\ ~ wf m.
Proof.
  exists ex_two_loops_one_face. split; [vm_compute; reflexivity|].
  intros (_ & _ & _ & W).
  assert (A : lv (abs ex_two_loops_one_face) 9 = true) by (vm_compute; reflexivity).
  assert (B : fc (abs ex_two_loops_one_face) 9 = Some 0) by (vm_compute; reflexivity).
  assert (E : fe (abs ex_two_loops_one_face) 0 = 1) by (vm_compute; reflexivity).
  destruct (wf_fc W _ A B) as [_ R]. rewrite E in R.
  assert (X : forall x, reach (nx (abs ex_two_loops_one_face)) 1 x -> In x [1; 4; 3]).
  { intros x Q. induction Q as [|x Q IH]; [left; auto|].
    repeat destruct IH as [<-|IH]; vm_compute; auto. }
  apply X in R. vm_compute in R. intuition discriminate.
Qed.
Print Assumptions C04_check_misses_shared_face_refuted.

(** and it rejects consistent meshes containing an edge without any face. *)
Theorem C04_check_rejects_paths_refuted :
  exists m : mesh nat nat nat, wf m /\ (forall f, lvf (abs m) f = false) /\ check m = Ok false.
Proof.
  exists ex_path. split; [apply wfb_ok; vm_compute; reflexivity|].
  split; [|vm_compute; reflexivity]. intros [|f]; vm_compute; reflexivity.
Qed.
Print Assumptions C04_check_rejects_paths_refuted.

(** C05. On a consistent mesh every half-edge lies on a loop, the forward iterator yields exactly
    this loop, the backward iterator the reversed loop. *)
Theorem C05_face_traversal :
  forall (VP EP FP : Type) (m : mesh VP EP FP) e, wf m -> lv (abs m) e = true ->
    exists t, loop (abs m) (e :: t) /\ edges_face m e = Ok (e :: t) /\ edges_face_back m e = Ok (e :: rev t).
Proof. exact @face_traversal. Qed.
Print Assumptions C05_face_traversal.

Theorem C05_face_size :
  forall (VP EP FP : Type) (m : mesh VP EP FP) f l, wf m -> lvf (abs m) f = true ->
    loop (abs m) (fe (abs m) f :: l) ->
    face_num_edges m f = Ok (length (fe (abs m) f :: l)) /\ face_edges m f = Ok (fe (abs m) f :: l).
Proof. exact @face_num_edges_ok. Qed.
Print Assumptions C05_face_size.

(** Half-edges of one face are exactly those yielded for it. *)
Theorem C05_face_edges_complete :
  forall (VP EP FP : Type) (m : mesh VP EP FP) f, wf m -> lvf (abs m) f = true ->
    exists l, face_edges m f = Ok l /\ NoDup l /\
      forall x, In x l <-> lv (abs m) x = true /\ fc (abs m) x = Some f.
Proof. exact @face_edges_complete. Qed.
Print Assumptions C05_face_edges_complete.

Example C05_example : wf ex_square /\ lv (abs ex_square) 0 = true /\ edges_face ex_square 0 = Ok [0; 2; 4; 7] /\
  edges_face_back ex_square 0 = Ok [0; 7; 4; 2] /\ lvf (abs ex_square) 0 = true /\ face_num_edges ex_square 0 = Ok 4.
Proof. split; [apply wfb_ok; vm_compute; reflexivity|]. vm_compute. intuition. Qed.

(** C06. The vertex iterator yields exactly the half-edges starting at the vertex, once each. *)
Theorem C06_vertex_wheel :
  forall (VP EP FP : Type) (c : cfg) (m : mesh VP EP FP) v, wf m -> lvv (abs m) v = true ->
    exists l, edges_out c m v = Ok l /\ NoDup l /\
      (forall x, In x l <-> lv (abs m) x = true /\ og (abs m) x = v) /\
      edges_in c m v = Ok (map (tw (abs m)) l) /\ degree c m v = Ok (length l) /\
      v_neighbors c m v = Ok (map (fun x => og (abs m) (tw (abs m) x)) l).
Proof. exact @vertex_wheel. Qed.
Print Assumptions C06_vertex_wheel.

Example C06_example : wf ex_square /\ lvv (abs ex_square) 2 = true /\ edges_out c0 ex_square 2 = Ok [3; 4] /\
  edges_in c0 ex_square 2 = Ok [2; 5] /\ v_neighbors c0 ex_square 2 = Ok [1; 3].
Proof. split; [apply wfb_ok; vm_compute; reflexivity|]. vm_compute. intuition. Qed.

(** C07. [shared_edge] *)
Theorem C07_shared_edge :
  forall (VP EP FP : Type) (c : cfg) (m : mesh VP EP FP) v w, wf m -> lvv (abs m) v = true ->
    exists o, shared_edge c m v w = Ok o /\
      match o with
      | Some e => lv (abs m) e = true /\ og (abs m) e = v /\ og (abs m) (tw (abs m) e) = w
      | None => forall e, lv (abs m) e = true -> og (abs m) e = v -> og (abs m) (tw (abs m) e) <> w
      end.
Proof. exact @shared_edge_spec. Qed.
Print Assumptions C07_shared_edge.

Example C07_example : wf ex_square /\ shared_edge c0 ex_square 1 2 = Ok (Some 2) /\ shared_edge c0 ex_square 0 2 = Ok None.
Proof. split; [apply wfb_ok; vm_compute; reflexivity|]. vm_compute. intuition. Qed.

(** C08. [add_vertex_via_edge]: effect, and it does not panic while ids are left. *)
Theorem C08_add_vertex_via_edge :
  forall (VP EP FP : Type) (c : cfg) (m : mesh VP EP FP) i y y1 y2 m' v e1 e2, wf m ->
    lv (abs m) i = true -> fc (abs m) i = None ->
    add_vertex_via_edge c m i (nx (abs m) i) y y1 y2 = Ok (m', v, e1, e2) ->
    wf m' /\ vertex_added (abs m) (abs m') i v e1 e2 y y1 y2.
Proof. exact @c08_effect. Qed.
Print Assumptions C08_add_vertex_via_edge.

Theorem C08_total :
  forall (VP EP FP : Type) (c : cfg) (m : mesh VP EP FP) i y y1 y2 a b d, wf m -> fits c m (2 + a) (S b) d ->
    lv (abs m) i = true -> fc (abs m) i = None ->
    exists m' v e1 e2, add_vertex_via_edge c m i (nx (abs m) i) y y1 y2 = Ok (m', v, e1, e2) /\ fits c m' a b d.
Proof. exact @t_add_vertex_via_edge. Qed.
Print Assumptions C08_total.

(** [add_vertex_via_vertex] picks a boundary corner of the vertex. *)
Theorem C08_add_vertex_via_vertex :
  forall (VP EP FP : Type) (c : cfg) (m : mesh VP EP FP) v y y1 y2 m' w e1 e2, wf m -> dbg c = true ->
    add_vertex_via_vertex c m v y y1 y2 = Ok (m', w, e1, e2) ->
    wf m' /\ exists i, lv (abs m) i = true /\ og (abs m) (tw (abs m) i) = v /\ fc (abs m) i = None /\
      vertex_added (abs m) (abs m') i w e1 e2 y y1 y2.
Proof. exact @spec_add_vertex_via_vertex. Qed.
Print Assumptions C08_add_vertex_via_vertex.

Example C08_example : wf ex_square /\ fits c0 ex_square 2 1 0 /\ lv (abs ex_square) 2 = true /\ fc (abs ex_square) 2 = None /\
  exists m', add_vertex_via_edge c0 ex_square 2 (nx (abs ex_square) 2) 99 1 2 = Ok (m', 4, 8, 9) /\
    edges_face m' 0 = Ok [0; 2; 8; 9; 4; 7] /\ edges_face m' 1 = Ok [1; 6; 5; 3].
Proof.
  split; [apply wfb_ok; vm_compute; reflexivity|].
  split; [repeat split; apply Nat.leb_le; vm_compute; reflexivity|].
  do 2 (split; [reflexivity|]). eexists. split; [vm_compute; reflexivity|]. vm_compute. intuition.
Qed.

(** [add_vertex] adds an isolated vertex, [add_isolated_edge] a free edge; nothing else changes. *)
Theorem C08_add_vertex :
  forall (VP EP FP : Type) (c : cfg) (m : mesh VP EP FP) y m' v, wf m -> add_vertex c m y = Ok (m', v) ->
    wf m' /\ lvv (abs m) v = false /\ lvv (abs m') v = true /\ ve (abs m') v = None /\
    vp (abs m') v = Some y /\ (forall w, w <> v -> keep_vertex (abs m) (abs m') w) /\
    (forall e, keep_label (abs m) (abs m') e /\ keep_links (abs m) (abs m') e) /\
    (forall f, keep_face (abs m) (abs m') f) /\ (forall l, loop (abs m) l -> loop (abs m') l).
Proof. exact @spec_add_vertex. Qed.
Print Assumptions C08_add_vertex.

Theorem C08_add_isolated_edge :
  forall (VP EP FP : Type) (c : cfg) (m : mesh VP EP FP) ya y0 yb y1 m' v0 v1, wf m ->
    add_isolated_edge c m ya y0 yb y1 = Ok (m', v0, v1) ->
    wf m' /\ exists e0 e1, isolated_added (abs m) (abs m') v0 v1 e0 e1 ya y0 yb y1.
Proof. exact @spec_add_isolated_edge. Qed.
Print Assumptions C08_add_isolated_edge.

(** C09. [insert_edge] splits one boundary loop or joins two. *)
Theorem C09_insert_edge :
  forall (VP EP FP : Type) (c : cfg) (m : mesh VP EP FP) i y1 o y2 m' e1 e2, wf m ->
    (dbg c = true \/ i <> o) -> fc (abs m) i = None -> fc (abs m) o = None ->
    insert_edge c m i y1 o y2 = Ok (m', e1, e2) ->
    wf m' /\ lv (abs m) i = true /\ lv (abs m) o = true /\ i <> o /\
    edge_inserted (abs m) (abs m') i o e1 e2 y1 y2.
Proof. exact @spec_insert_edge. Qed.
Print Assumptions C09_insert_edge.

Theorem C09_insert_edge_no_check :
  forall (VP EP FP : Type) (c : cfg) (m : mesh VP EP FP) i y1 o y2 m' e1 e2, wf m ->
    i <> o -> fc (abs m) i = None -> fc (abs m) o = None ->
    insert_edge_no_check c m i y1 o y2 = Ok (m', e1, e2) ->
    wf m' /\ lv (abs m) i = true /\ lv (abs m) o = true /\
    edge_inserted (abs m) (abs m') i o e1 e2 y1 y2.
Proof. exact @spec_insert_edge_no_check. Qed.
Print Assumptions C09_insert_edge_no_check.

Theorem C09_total :
  forall (VP EP FP : Type) (c : cfg) (m : mesh VP EP FP) i y1 o y2 s1 s2 a b d, wf m -> fits c m (2 + a) b d ->
    loop (abs m) (i :: s1 ++ o :: s2) -> fc (abs m) i = None ->
    (forall e, lv (abs m) e = true ->
       ~ (og (abs m) e = og (abs m) (tw (abs m) i) /\ og (abs m) (tw (abs m) e) = og (abs m) (tw (abs m) o))) ->
    exists m' e1 e2, insert_edge c m i y1 o y2 = Ok (m', e1, e2) /\ fits c m' a b d.
Proof. exact @t_insert_edge. Qed.
Print Assumptions C09_total.

Example C09_example : wf ex_loop4 /\ loop (abs ex_loop4) [0; 2; 4; 7] /\ fc (abs ex_loop4) 0 = None /\
  fc (abs ex_loop4) 4 = None /\
  exists m', insert_edge c0 ex_loop4 0 1 4 2 = Ok (m', 8, 9) /\ edges_face m' 0 = Ok [0; 8; 7] /\ edges_face m' 4 = Ok [4; 9; 2].
Proof.
  split; [apply wfb_ok; vm_compute; reflexivity|]. split; [apply loopb_ok; vm_compute; reflexivity|].
  do 2 (split; [reflexivity|]). eexists. split; [vm_compute; reflexivity|]. vm_compute. intuition.
Qed.

(** C10. [close_hole] and [close_face] *)
Theorem C10_close_hole :
  forall (VP EP FP : Type) (c : cfg) (m : mesh VP EP FP) e y cu m' f, wf m ->
    (dbg c = true \/ fc (abs m) e = None) -> close_hole c m e y cu = Ok (m', f) ->
    wf m' /\ lv (abs m) e = true /\ fc (abs m) e = None /\ face_added (abs m) (abs m') e f y cu.
Proof. exact @spec_close_hole. Qed.
Print Assumptions C10_close_hole.

Theorem C10_close_hole_total :
  forall (VP EP FP : Type) (c : cfg) (m : mesh VP EP FP) e y cu a b d, wf m -> fits c m a b (S d) ->
    lv (abs m) e = true -> fc (abs m) e = None ->
    exists m' f, close_hole c m e y cu = Ok (m', f) /\ fits c m' a b d.
Proof. exact @t_close_hole. Qed.
Print Assumptions C10_close_hole_total.

Theorem C10_close_hole_panics :
  forall (VP EP FP : Type) (c : cfg) (m : mesh VP EP FP) e y cu, wf m -> dbg c = true ->
    (lv (abs m) e = false \/ fc (abs m) e <> None) -> close_hole c m e y cu = Panic.
Proof. exact @t_close_hole_panics. Qed.
Print Assumptions C10_close_hole_panics.

Theorem C10_close_face :
  forall (VP EP FP : Type) (c : cfg) (m : mesh VP EP FP) i y1 o y2 y cu m' f e1 e2, wf m ->
    (dbg c = true \/ (i <> o /\ fc (abs m) i = None /\ fc (abs m) o = None)) ->
    close_face c m i y1 o y2 y cu = Ok (m', f, e1, e2) ->
    wf m' /\ lv (abs m) i = true /\ lv (abs m) o = true /\ i <> o /\
    fc (abs m) i = None /\ fc (abs m) o = None /\
    exists g1, WF g1 /\ edge_inserted (abs m) g1 i o e1 e2 y1 y2 /\ face_added g1 (abs m') i f y cu.
Proof. exact @spec_close_face. Qed.
Print Assumptions C10_close_face.

Theorem C10_close_face_total :
  forall (VP EP FP : Type) (c : cfg) (m : mesh VP EP FP) i y1 o y2 y cu s1 s2 a b d, wf m ->
    fits c m (2 + a) b (S d) -> loop (abs m) (i :: s1 ++ o :: s2) -> fc (abs m) i = None ->
    (forall e, lv (abs m) e = true ->
       ~ (og (abs m) e = og (abs m) (tw (abs m) i) /\ og (abs m) (tw (abs m) e) = og (abs m) (tw (abs m) o))) ->
    exists m' f e1 e2, close_face c m i y1 o y2 y cu = Ok (m', f, e1, e2) /\ fits c m' a b d.
Proof. exact @t_close_face. Qed.
Print Assumptions C10_close_face_total.

(** [close_face_vertices] chooses the half-edges for [close_face] by vertices. *)
Theorem C10_close_face_vertices :
  forall (VP EP FP : Type) (c : cfg) (m : mesh VP EP FP) p y1 from y2 to y cu m' f e1 e2, wf m -> dbg c = true ->
    close_face_vertices c m p y1 from y2 to y cu = Ok (m', f, e1, e2) ->
    exists i o, lv (abs m) i = true /\ og (abs m) i = p /\ og (abs m) (tw (abs m) i) = from /\
      lv (abs m) o = true /\ og (abs m) (tw (abs m) o) = to /\ i <> o /\
      fc (abs m) i = None /\ fc (abs m) o = None /\
      (forall t, loop (abs m) (o :: t) -> exists x, In x (o :: t) /\ og (abs m) x = p) /\ wf m' /\
      exists g1, WF g1 /\ edge_inserted (abs m) g1 i o e1 e2 y1 y2 /\ face_added g1 (abs m') i f y cu.
Proof. exact @spec_close_face_vertices. Qed.
Print Assumptions C10_close_face_vertices.

Example C10_example : wf ex_loop4 /\ fc (abs ex_loop4) 0 = None /\ lv (abs ex_loop4) 0 = true /\
  exists m' m'', close_hole c0 ex_loop4 0 5 false = Ok (m', 0) /\ map (fc (abs m')) [0; 2; 4; 7; 1] = [Some 0; Some 0; Some 0; Some 0; None] /\
    close_face c0 ex_loop4 0 1 4 2 5 true = Ok (m'', 0, 8, 9) /\ map (fc (abs m'')) [0; 8; 7; 4; 9; 2] = [Some 0; Some 0; Some 0; None; None; None].
Proof.
  split; [apply wfb_ok; vm_compute; reflexivity|]. do 2 (split; [reflexivity|]).
  do 2 eexists. split; [vm_compute; reflexivity|]. split; [vm_compute; reflexivity|].
  split; vm_compute; reflexivity.
Qed.

(** C11. [remove_face]; it undoes [close_hole] and [close_hole] undoes it. *)
Theorem C11_remove_face :
  forall (VP EP FP : Type) (c : cfg) (m : mesh VP EP FP) f m' y, wf m -> remove_face c m f = Ok (m', y) ->
    wf m' /\ face_removed (abs m) (abs m') f /\ exists cu, fp (abs m) f = Some (cu, y).
Proof. exact @spec_remove_face. Qed.
Print Assumptions C11_remove_face.

Theorem C11_remove_face_total :
  forall (VP EP FP : Type) (c : cfg) (m : mesh VP EP FP) f a b d, wf m -> fits c m a b d -> lvf (abs m) f = true ->
    exists m' y, remove_face c m f = Ok (m', y) /\ fits c m' a b (S d).
Proof. exact @t_remove_face. Qed.
Print Assumptions C11_remove_face_total.

Theorem C11_close_then_remove :
  forall (VP EP FP : Type) (c : cfg) (m : mesh VP EP FP) e y cu m1 f m2 y', wf m ->
    (dbg c = true \/ fc (abs m) e = None) ->
    close_hole c m e y cu = Ok (m1, f) -> remove_face c m1 f = Ok (m2, y') ->
    y' = y /\ wf m2 /\ unchanged (abs m) (abs m2).
Proof. exact @close_remove. Qed.
Print Assumptions C11_close_then_remove.

Theorem C11_remove_then_close :
  forall (VP EP FP : Type) (c : cfg) (m : mesh VP EP FP) f m1 y e cu m2 f' t, wf m ->
    remove_face c m f = Ok (m1, y) ->
    loop (abs m) (fe (abs m) f :: t) -> In e (fe (abs m) f :: t) ->
    close_hole c m1 e y cu = Ok (m2, f') ->
    f' = f /\ wf m2 /\
    (forall x, keep_label (abs m) (abs m2) x /\ keep_links (abs m) (abs m2) x) /\
    (forall v, keep_vertex (abs m) (abs m2) v) /\ (forall f', f' <> f -> keep_face (abs m) (abs m2) f') /\
    lvf (abs m2) f = true /\ fe (abs m2) f = e /\ fp (abs m2) f = Some (cu, y).
Proof. exact @remove_close. Qed.
Print Assumptions C11_remove_then_close.

Example C11_example : wf ex_square /\ lvf (abs ex_square) 0 = true /\ loop (abs ex_square) [fe (abs ex_square) 0; 6; 5; 3] /\
  exists m1 m2, remove_face c0 ex_square 0 = Ok (m1, 7) /\ fc (abs m1) 1 = None /\ close_hole c0 m1 5 7 false = Ok (m2, 0).
Proof.
  split; [apply wfb_ok; vm_compute; reflexivity|]. split; [reflexivity|]. split; [apply loopb_ok; vm_compute; reflexivity|].
  do 2 eexists. split; [vm_compute; reflexivity|]. split; vm_compute; reflexivity.
Qed.

(** C12. [insert_edge_between] *)
Theorem C12_insert_edge_between :
  forall (VP EP FP : Type) (c : cfg) (m : mesh VP EP FP) v y0 w y1 m' e0 e1, wf m -> dbg c = true -> v <> w ->
    insert_edge_between c m v y0 w y1 = Ok (m', e0, e1) ->
    wf m' /\ (exists ci co, connected (abs m) (abs m') v w ci co e0 e1 y0 y1) /\
    (forall e, lv (abs m) e = true -> ~ (og (abs m) e = v /\ og (abs m) (tw (abs m) e) = w)).
Proof. exact @spec_insert_edge_between. Qed.
Print Assumptions C12_insert_edge_between.

Theorem C12_release :
  forall (VP EP FP : Type) (c : cfg) (m : mesh VP EP FP) v y0 w y1 m' e0 e1, wf m -> v <> w ->
    attachable (abs m) v -> attachable (abs m) w ->
    insert_edge_between c m v y0 w y1 = Ok (m', e0, e1) ->
    wf m' /\ exists ci co, connected (abs m) (abs m') v w ci co e0 e1 y0 y1.
Proof. exact @spec_between_attachable. Qed.
Print Assumptions C12_release.

Theorem C12_total :
  forall (VP EP FP : Type) (c : cfg) (m : mesh VP EP FP) v y0 w y1 a b d, wf m -> fits c m (2 + a) b d ->
    v <> w -> attachable (abs m) v -> attachable (abs m) w ->
    (dbg c = true -> forall e, lv (abs m) e = true -> ~ (og (abs m) e = v /\ og (abs m) (tw (abs m) e) = w)) ->
    exists m' e0 e1, insert_edge_between c m v y0 w y1 = Ok (m', e0, e1) /\ fits c m' a b d.
Proof. exact @t_insert_edge_between. Qed.
Print Assumptions C12_total.

Example C12_example : wf ex_mix /\ attachable (abs ex_mix) 3 /\ attachable (abs ex_mix) 0 /\
  exists m1 m2, insert_edge_between c0 ex_mix 3 1 0 2 = Ok (m1, 6, 7) /\ edges_face m1 6 = Ok [6; 0; 2; 5; 7] /\
    insert_edge_between c0 ex_mix 3 1 4 2 = Ok (m2, 6, 7) /\ edges_face m2 6 = Ok [6; 7].
Proof.
  split; [apply wfb_ok; vm_compute; reflexivity|].
  split; [split; [reflexivity|left; reflexivity]|].
  split; [split; [reflexivity|right; exists 0; split; [reflexivity|split; [reflexivity|split; [reflexivity|]]]]|].
  - intros x L O F. do 6 (destruct x as [|x]; [vm_compute in O, F; try reflexivity; try discriminate|]).
    exfalso. vm_compute in L. destruct x; discriminate L.
  - do 2 eexists. split; [vm_compute; reflexivity|]. split; [vm_compute; reflexivity|].
    split; vm_compute; reflexivity.
Qed.

(** C13. Flipping an edge renames the half-edges by exchanging it with its twin, *)
Theorem C13_flip_edge :
  forall (VP EP FP : Type) (c : cfg) (m : mesh VP EP FP) e m', wf m ->
    (lv (abs m) e = true -> Flip.flippable (abs m) e) -> flip_edge m e = Ok m' ->
    wf m' /\ lv (abs m) e = true /\ renamed (swap e (tw (abs m) e)) (abs m) (abs m').
Proof. exact @spec_flip. Qed.
Print Assumptions C13_flip_edge.

Theorem C13_flip_edge_total :
  forall (VP EP FP : Type) (m : mesh VP EP FP) e, wf m -> lv (abs m) e = true -> exists m', flip_edge m e = Ok m'.
Proof. exact @t_flip_edge. Qed.
Print Assumptions C13_flip_edge_total.

(** flipping twice restores all half-edges, *)
Theorem C13_flip_twice :
  forall (VP EP FP : Type) (m : mesh VP EP FP) e m1 m2, wf m -> Flip.flippable (abs m) e ->
    flip_edge m e = Ok m1 -> flip_edge m1 e = Ok m2 ->
    wf m2 /\ (forall x, keep_label (abs m) (abs m2) x /\ keep_links (abs m) (abs m2) x) /\
    (forall v, lvv (abs m2) v = lvv (abs m) v /\ (lvv (abs m) v = true -> vp (abs m2) v = vp (abs m) v)) /\
    (forall f, lvf (abs m2) f = lvf (abs m) f /\ (lvf (abs m) f = true -> fp (abs m2) f = fp (abs m) f)).
Proof. exact @flip_twice. Qed.
Print Assumptions C13_flip_twice.

(** and flipping a whole mesh without dangling edges renames every half-edge to its twin. *)
Theorem C13_flip_mesh :
  forall (VP EP FP : Type) (m : mesh VP EP FP), wf m ->
    (forall e, lv (abs m) e = true -> nx (abs m) e <> e /\ nx (abs m) e <> tw (abs m) e) ->
    exists m', flip_all m = Ok m' /\ wf m' /\ renamed (tw (abs m)) (abs m) (abs m').
Proof. exact @flip_all_ok. Qed.
Print Assumptions C13_flip_mesh.

Example C13_example : wf ex_square /\ Flip.flippable (abs ex_square) 2 /\
  exists m1 m2, flip_edge ex_square 2 = Ok m1 /\ edges_face m1 0 = Ok [0; 3; 4; 7] /\
    flip_all ex_square = Ok m2 /\ edges_face m2 1 = Ok [1; 3; 5; 6] /\ edges_face m2 0 = Ok [0; 7; 4; 2].
Proof.
  split; [apply wfb_ok; vm_compute; reflexivity|]. split; [vm_compute; intuition discriminate|].
  do 2 eexists. split; [vm_compute; reflexivity|]. split; [vm_compute; reflexivity|].
  split; [vm_compute; reflexivity|]. vm_compute; intuition.
Qed.

(** Flipping a mesh with a dangling edge breaks it. *)
Theorem C13_flip_mesh_dangling_refuted :
  exists m m' : mesh nat nat nat, wf m /\ flip_all m = Ok m' /\ ~ wf m'.
Proof.
  exists ex_path. eexists. split; [apply wfb_ok; vm_compute; reflexivity|]. split; [vm_compute; reflexivity|].
  intros (_ & _ & _ & W). pose proof (wf_nxpv W 1 eq_refl) as H. vm_compute in H. discriminate.
Qed.
Print Assumptions C13_flip_mesh_dangling_refuted.

(** C55. [twin_edges] yields every undirected edge once. *)
Theorem C55_twin_edges :
  forall (VP EP FP : Type) (m : mesh VP EP FP), wf m ->
    exists l, twin_edges m = Ok l /\ NoDup (map fst l) /\
      (forall a b, In (a, b) l <-> lv (abs m) a = true /\ b = tw (abs m) a /\ a < b).
Proof. exact @twin_edges_ok. Qed.
Print Assumptions C55_twin_edges.

Theorem C55_twin_edges_count :
  forall (VP EP FP : Type) (m : mesh VP EP FP) l, wf m -> twin_edges m = Ok l ->
    Permutation (edge_ids m) (map fst l ++ map snd l) /\ num_edges m = 2 * length l.
Proof. exact @twin_edges_count. Qed.
Print Assumptions C55_twin_edges_count.

Example C55_example : wf ex_mix /\ twin_edges ex_mix = Ok [(0, 1); (2, 3); (4, 5)] /\ num_edges ex_mix = 6.
Proof. split; [apply wfb_ok; vm_compute; reflexivity|]. vm_compute. intuition. Qed.

(** C56. The size hint of the forward iterator is exact before the first element and one too large
    ever after, although the iterator is declared [ExactSizeIterator]. *)
Theorem C56_size_hint_off_by_one :
  forall (VP EP FP : Type) (m : mesh VP EP FP) e l1 l2, wf m -> loop (abs m) (e :: l1 ++ l2) ->
    it_size_hint m (it_new e) = Ok (length (e :: l1 ++ l2)) /\
    it_advance m (it_new e) (S (length l1)) = Ok (map Some (e :: l1), mkIt false e (last l1 e)) /\
    it_size_hint m (mkIt false e (last l1 e)) = Ok (S (length l2)).
Proof. exact @size_hint_ok. Qed.
Print Assumptions C56_size_hint_off_by_one.

Theorem C56_exact_size_refuted :
  exists (m : mesh nat nat nat) e it l, wf m /\ it_advance m (it_new e) 1 = Ok ([Some e], it) /\
    edges_face m e = Ok (e :: l) /\ it_size_hint m it <> Ok (length l).
Proof.
  exists ex_square, 0. do 2 eexists. split; [apply wfb_ok; vm_compute; reflexivity|].
  split; [vm_compute; reflexivity|]. split; [vm_compute; reflexivity|]. vm_compute. discriminate.
Qed.
Print Assumptions C56_exact_size_refuted.
