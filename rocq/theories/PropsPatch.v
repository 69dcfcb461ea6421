(** Property C70: drawing on an existing boundary with the path builder. *)
From Coq Require Import List Arith Bool.
From Verif Require Import Base DVec Mesh Spec MeshSpec MeshEx BuildSpec PathBuilder PathBSpec PatchSpec PatchProofs.
Import ListNotations.

(** C70. Starting at a boundary half-edge and drawing lines to new vertices hangs one path on its target. The
    vertices and both directions of the edges carry the given payloads, the path lies in the boundary loop of the
    start, and nothing else changes. *)
Theorem C70_trail :
  forall (VP EP FP : Type) (c : cfg) (m : mesh VP EP FP) e A ls a b d, wf m -> hole (abs m) (e :: A) -> sole (abs m) e ->
    fits c m (2 * length ls + a) (length ls + b) d ->
    exists m' b' es vs, draw_from c m e ls = Ok (m', b') /\ wf m' /\ fits c m' a b d /\
      trail_built (abs m) (abs m') e A es vs (map l_end ls) (map l_there ls) (map l_back ls) /\
      p_closed b' = false /\ p_cv b' = Some (last vs (target (abs m) e)).
Proof. exact @draw_from_total. Qed.
Print Assumptions C70_trail.

(** Drawing on to another corner of the same boundary and closing divides the boundary loop by the path: the part
    behind the other corner becomes exactly one new face, the part before it stays a boundary. *)
Theorem C70_patch :
  forall (VP EP FP : Type) (dE : EP) (c : cfg) (m : mesh VP EP FP) e A o B ls x0 x1 fp a b d, wf m ->
    hole (abs m) (e :: A ++ o :: B) -> sole (abs m) e -> sole (abs m) o -> target (abs m) e <> target (abs m) o ->
    (ls = [] -> dbg c = true -> forall x, ~ leads (abs m) x (target (abs m) e) (target (abs m) o)) ->
    fits c m (2 * S (length ls) + a) (length ls + b) (S d) ->
    exists m' b' f es vs, draw_patch dE c m e ls (target (abs m) o) x0 x1 fp = Ok (m', b', Some f) /\ wf m' /\ fits c m' a b d /\
      patch_built (abs m) (abs m') e A o B es vs f (map l_end ls) (map l_there ls ++ [x0]) (map l_back ls ++ [x1]) fp /\
      p_closed b' = true /\ p_face b' = true.
Proof. exact @draw_patch_total. Qed.
Print Assumptions C70_patch.

Example C70_patch_ex :
  wf ex_square /\ hole (abs ex_square) (0 :: [2] ++ 4 :: [7]) /\ sole (abs ex_square) 0 /\ sole (abs ex_square) 4 /\
  target (abs ex_square) 0 = 1 /\ target (abs ex_square) 4 = 3 /\ fits c0 ex_square (2 * 3 + 0) (2 + 0) 1 /\
  exists m' b' f, draw_patch 0 c0 ex_square 0 [(50, 51, 52); (60, 61, 62)] 3 71 72 9 = Ok (m', b', Some f) /\ f = 1 /\
    map (fc (abs m')) [0; 2; 4; 7; 8; 9; 10; 11; 12; 13] = [Some 1; None; None; Some 1; Some 1; None; Some 1; None; Some 1; None].
Proof.
  split; [apply wfb_ok; vm_compute; reflexivity|].
  split. { apply holeb_ok; vm_compute; reflexivity. }
  split; [apply soleb_ok; vm_compute; reflexivity|].
  split; [apply soleb_ok; vm_compute; reflexivity|].
  split; [reflexivity|]. split; [reflexivity|].
  split; [repeat split; apply Nat.leb_le; vm_compute; reflexivity|].
  do 3 eexists. split; [vm_compute; reflexivity|]. split; vm_compute; reflexivity.
Qed.

(** Closing at once fills the boundary loop of the start. *)
Theorem C70_at_once :
  forall (VP EP FP : Type) (dE : EP) (c : cfg) (m : mesh VP EP FP) e A fp a b d, wf m -> hole (abs m) (e :: A) -> A <> [] ->
    fits c m a b (S d) ->
    exists m' b' f, (let* (m1, b1) := draw_from c m e [] in p_close dE c m1 b1 fp) = Ok (m', b', Some f) /\ wf m' /\ fits c m' a b d /\
      grown (abs m) (abs m') (e :: A) [] [] [f] /\ face_is (abs m') f (e :: A) fp false.
Proof. exact @close_at_once. Qed.
Print Assumptions C70_at_once.

(** Starting at a vertex does the same if the half-edge stored in the vertex is on the boundary. *)
Theorem C70_start_at :
  forall (VP EP FP : Type) (dE : EP) (c : cfg) (m : mesh VP EP FP) v e0 e A o B ls x0 x1 fp a b d, wf m ->
    ve (abs m) v = Some e0 -> fc (abs m) e0 = None -> target (abs m) e = v ->
    hole (abs m) (e :: A ++ o :: B) -> sole (abs m) e -> sole (abs m) o -> v <> target (abs m) o ->
    (ls = [] -> dbg c = true -> forall x, ~ leads (abs m) x v (target (abs m) o)) ->
    fits c m (2 * S (length ls) + a) (length ls + b) (S d) ->
    exists m' b' f es vs, draw_patch_at dE c m v ls (target (abs m) o) x0 x1 fp = Ok (m', b', Some f) /\ wf m' /\ fits c m' a b d /\
      patch_built (abs m) (abs m') e A o B es vs f (map l_end ls) (map l_there ls ++ [x0]) (map l_back ls ++ [x1]) fp.
Proof. exact @start_at_boundary. Qed.
Print Assumptions C70_start_at.

(** If that half-edge lies in a face, the lines are drawn all the same, but [close] panics, although the vertex has
    a corner on the boundary. *)
Theorem C70_start_at_refuted :
  forall (VP EP FP : Type) (dE : EP) (c : cfg) (m : mesh VP EP FP) v e0 e A o B ls x0 x1 fp a b d, wf m ->
    ve (abs m) v = Some e0 -> fc (abs m) e0 <> None -> target (abs m) e = v ->
    hole (abs m) (e :: A ++ o :: B) -> sole (abs m) e -> sole (abs m) o -> v <> target (abs m) o ->
    (ls = [] -> dbg c = true -> forall x, ~ leads (abs m) x v (target (abs m) o)) ->
    fits c m (2 * S (length ls) + a) (length ls + b) d ->
    draw_patch_at dE c m v ls (target (abs m) o) x0 x1 fp = Panic.
Proof. exact @start_at_face_panics. Qed.
Print Assumptions C70_start_at_refuted.

(** In the square the first vertex is of the one kind and the second of the other. *)
Example C70_start_at_ex :
  ve (abs ex_square) 0 = Some 0 /\ fc (abs ex_square) 0 = None /\ target (abs ex_square) 7 = 0 /\ target (abs ex_square) 2 = 2 /\
  hole (abs ex_square) (7 :: [0] ++ 2 :: [4]) /\
  (exists m' b' f, draw_patch_at 0 c0 ex_square 0 [(50, 51, 52)] 2 71 72 9 = Ok (m', b', Some f)) /\
  ve (abs ex_square) 1 = Some 1 /\ fc (abs ex_square) 1 = Some 0 /\
  draw_patch_at 0 c0 ex_square 1 [(50, 51, 52)] 3 71 72 9 = Panic.
Proof.
  do 4 (split; [reflexivity|]). split. { apply holeb_ok; vm_compute; reflexivity. }
  split; [do 3 eexists; vm_compute; reflexivity|]. do 2 (split; [reflexivity|]). vm_compute. reflexivity.
Qed.

(** Closing a path that has left the boundary and not come back panics. *)
Theorem C70_close_open_refuted :
  forall (VP EP FP : Type) (dE : EP) (c : cfg) (m : mesh VP EP FP) e A ls fp a b d, wf m -> hole (abs m) (e :: A) -> sole (abs m) e ->
    ls <> [] -> fits c m (2 * length ls + a) (length ls + b) d ->
    (let* (m1, b1) := draw_from c m e ls in p_close dE c m1 b1 fp) = Panic.
Proof. exact @trail_close_panics. Qed.
Print Assumptions C70_close_open_refuted.
