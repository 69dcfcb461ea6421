(** Property C60: the path builder and the import of SVG paths. *)
From Coq Require Import List Arith Bool.
From Verif Require Import Base DVec Mesh Spec MeshSpec MeshEx BuildSpec PathBuilder PathBSpec PathBProofs SvgProofs.
Import ListNotations.

(** C60. Starting at a new vertex and drawing lines to new vertices adds one open path: its vertices carry the
    given payloads in order, its half-edges and their twins the given edge payloads, nothing else changes, and
    the builder knows both ends. *)
Theorem C60_path :
  forall (VP EP FP : Type) (c : cfg) (m : mesh VP EP FP) y0 ls a b d, wf m -> ls <> [] ->
    fits c m (2 * length ls + a) (S (length ls) + b) d ->
    exists m' b' es vs, draw c m y0 ls = Ok (m', b') /\ wf m' /\ fits c m' a b d /\
      path_built (abs m) (abs m') es vs (y0 :: map l_end ls) /\ pays (abs m') es (map l_there ls) /\
      pays (abs m') (map (tw (abs m')) es) (map l_back ls) /\ knows (abs m') b' es vs.
Proof. exact @draw_total. Qed.
Print Assumptions C60_path.

(** Drawing a last line back to the start and calling [close] adds one face whose boundary is the path in
    reverse; the path itself stays a boundary. *)
Theorem C60_polygon :
  forall (VP EP FP : Type) (dE : EP) (c : cfg) (m : mesh VP EP FP) y0 ls x0 x1 fp a b d, wf m -> 2 <= length ls ->
    fits c m (2 * S (length ls) + a) (S (length ls) + b) (S d) ->
    exists m' b' f es vs, draw_closed dE c m y0 ls x0 x1 fp = Ok (m', b', Some f) /\ wf m' /\ fits c m' a b d /\
      ring_built (abs m) (abs m') es vs (y0 :: map l_end ls) [f] /\ hole (abs m') es /\
      face_is (abs m') f (rev (map (tw (abs m')) es)) fp false /\
      pays (abs m') es (map l_there ls ++ [x0]) /\ pays (abs m') (map (tw (abs m')) es) (map l_back ls ++ [x1]) /\
      p_closed b' = true /\ p_face b' = true.
Proof. exact @draw_closed_total. Qed.
Print Assumptions C60_polygon.

Example C60_polygon_ex :
  wf ex_square /\ 2 <= length [(1, 10, 11); (2, 20, 21); (3, 30, 31)] /\ fits c0 ex_square (2 * 4 + 0) (4 + 0) (1 + 0) /\
  exists m' b' f, draw_closed 0 c0 ex_square 5 [(1, 10, 11); (2, 20, 21); (3, 30, 31)] 40 41 9 = Ok (m', b', Some f) /\
    f = 1.
Proof.
  split; [apply wfb_ok; vm_compute; reflexivity|]. split; [apply Nat.leb_le; reflexivity|].
  split; [repeat split; apply Nat.leb_le; vm_compute; reflexivity|].
  do 3 eexists. split; [vm_compute; reflexivity|reflexivity].
Qed.

(** [close] is documented to draw a straight line to the starting vertex if the path is not closed. It marks the
    path as closed first, and drawing on a closed path is a failed assertion: it panics on every open path. *)
Theorem C60_close_open_refuted :
  forall (VP EP FP : Type) (dE : EP) (c : cfg) (m : mesh VP EP FP) y0 ls fp a b d, wf m -> ls <> [] ->
    fits c m (2 * length ls + a) (S (length ls) + b) d ->
    (let* (m1, b1) := draw c m y0 ls in p_close dE c m1 b1 fp) = Panic.
Proof. exact @close_open_panics. Qed.
Print Assumptions C60_close_open_refuted.

Example C60_close_open_ex :
  wf ex_square /\ fits c0 ex_square (2 * 3 + 0) (4 + 0) 1 /\
  (exists m1 b1, draw c0 ex_square 5 [(1, 10, 11); (2, 20, 21); (3, 30, 31)] = Ok (m1, b1)).
Proof.
  split; [apply wfb_ok; vm_compute; reflexivity|].
  split; [repeat split; apply Nat.leb_le; vm_compute; reflexivity|].
  do 2 eexists. vm_compute. reflexivity.
Qed.

(** Without any line, [close] leaves the single vertex alone and returns [IndexType::max()], as documented. *)
Theorem C60_close_point :
  forall (VP EP FP : Type) (dE : EP) (c : cfg) (m : mesh VP EP FP) y0 fp a b d, wf m -> fits c m a (S b) d ->
    exists m1 v, add_vertex c m y0 = Ok (m1, v) /\
      (let* (m1, b1) := draw c m y0 [] in p_close dE c m1 b1 fp) =
        Ok (m1, mkPB true true (Some v) (Some v) None None, None).
Proof. exact @close_point. Qed.
Print Assumptions C60_close_point.

(** An SVG path that starts at [y0], never returns to it on the way and explicitly returns to it at the end is
    imported as one polygon (with or without a final [Close]). Curves are stored in the drawn half-edges only. *)
Theorem C60_svg :
  forall (VP EP FP : Type) (dE : EP) (dF : FP) (same : VP -> VP -> bool) (c : cfg) (m : mesh VP EP FP) y0
    (ss : list (@stroke VP EP)) (z : @stroke VP EP) tl a b d,
    wf m -> 2 <= length ss -> Forall (fun x => same y0 (snd x) = false) ss ->
    same y0 (snd z) = true -> tl = [] \/ tl = [SClose] ->
    fits c m (2 * S (length ss) + a) (S (length ss) + b) (S d) ->
    exists m' f es vs, import_path dE dF same c m (SMove y0 :: map s_seg (ss ++ [z]) ++ tl) = Ok m' /\
      wf m' /\ fits c m' a b d /\
      ring_built (abs m) (abs m') es vs (y0 :: map snd ss) [f] /\ hole (abs m') es /\
      face_is (abs m') f (rev (map (tw (abs m')) es)) dF false /\
      pays (abs m') es (map (s_pay dE) (ss ++ [z])) /\
      pays (abs m') (map (tw (abs m')) es) (repeat dE (length es)).
Proof. exact @import_ring. Qed.
Print Assumptions C60_svg.

Example C60_svg_ex :
  let ss := [(None, 1); (Some (fun x => x + 7), 2); (None, 3)] in
  wf ex_square /\ Forall (fun x => Nat.eqb 5 (snd x) = false) ss /\ fits c0 ex_square (2 * 4 + 0) (4 + 0) (1 + 0) /\
  exists m', import_path 0 0 Nat.eqb c0 ex_square (SMove 5 :: map s_seg (ss ++ [(None, 5)]) ++ [SClose]) = Ok m'.
Proof.
  cbv zeta. split; [apply wfb_ok; vm_compute; reflexivity|]. split; [repeat constructor|].
  split; [repeat split; apply Nat.leb_le; vm_compute; reflexivity|]. eexists. vm_compute. reflexivity.
Qed.

(** A path that does not return to its start by itself, as in "M 0 0 L 1 0 L 1 1 Z", is never imported: the import
    panics, whether or not the path ends with [Close]. *)
Theorem C60_svg_open_refuted :
  forall (VP EP FP : Type) (dE : EP) (dF : FP) (same : VP -> VP -> bool) (c : cfg) (m : mesh VP EP FP) y0
    (ss : list (@stroke VP EP)) tl a b d,
    wf m -> ss <> [] -> Forall (fun x => same y0 (snd x) = false) ss ->
    tl = [] \/ hd_error tl = Some SClose -> fits c m (2 * length ss + a) (S (length ss) + b) d ->
    import_path dE dF same c m (SMove y0 :: map s_seg ss ++ tl) = Panic.
Proof. exact @import_open. Qed.
Print Assumptions C60_svg_open_refuted.

(** Nor is a path with more than one subpath. *)
Theorem C60_svg_subpaths_refuted :
  forall (VP EP FP : Type) (dE : EP) (dF : FP) (same : VP -> VP -> bool) (c : cfg) (m : mesh VP EP FP) x segs q m',
    In (SMove q) segs -> import_path dE dF same c m (x :: segs) <> Ok m'.
Proof. exact @import_subpaths. Qed.
Print Assumptions C60_svg_subpaths_refuted.
