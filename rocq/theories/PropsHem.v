(** Property C68: hems of polygons with any number of corners on the old and on the new boundary. *)
From Coq Require Import List Arith Bool.
From Verif Require Import Base DVec Mesh Spec MeshSpec MeshMore MeshEx TopoSpec TopoEx BuildSpec Solid HemSpec HemTop HemMore.
Import ListNotations.

(** C68. [N] polygons around a boundary loop of [N * (k - 1)] half-edges, each standing on [k - 1] of them,
    use up [N * (n - 1)] payloads and close the hem; the new boundary has the payloads in reverse order and the
    returned half-edge ends it. *)
Theorem C68_hem :
  forall (VP EP FP : Type) (dE : EP) (dF : FP) (c : cfg) (m : mesh VP EP FP) n k N start t y ys a b d, wf m -> 2 <= n -> 2 <= k ->
    hole (abs m) (start :: t) -> length (start :: t) = N * (k - 1) -> length (y :: ys) = N * (n - 1) -> 3 <= length (y :: ys) ->
    fits c m (2 * n * N + a) (N * (n - 1) + b) (N + d) ->
    exists m' Bs ps Ts vs fs, loft_polygon_back dE dF c m start n k (y :: ys) = Ok (m', last (concat Ts) 0) /\ wf m' /\ fits c m' a b d /\
      length Bs = N /\ hem_built (abs m) (abs m') n k (t ++ [start]) (y :: rev ys) dF Bs ps Ts vs fs.
Proof. exact @loft_hem_total. Qed.
Print Assumptions C68_hem.

(** What the documentation says of it: [N] new faces with [n + k] sides each, [N * (n - 1)] new vertices, [n * N] new edges, and
    the returned half-edge leads from the second payload to the first. *)
Theorem C68_numbers :
  forall (VP EP FP : Type) (dE : EP) (dF : FP) (c : cfg) (m : mesh VP EP FP) n k N start t y y1 ys, wf m -> 2 <= n -> 2 <= k ->
    hole (abs m) (start :: t) -> length (start :: t) = N * (k - 1) -> length (y :: y1 :: ys) = N * (n - 1) -> ys <> [] ->
    fits c m (2 * n * N) (N * (n - 1)) N ->
    exists m' r fs, loft_polygon_back dE dF c m start n k (y :: y1 :: ys) = Ok (m', r) /\ wf m' /\
      num_vertices m' = num_vertices m + N * (n - 1) /\ num_faces m' = num_faces m + N /\ num_edges m' = num_edges m + 2 * n * N /\
      length fs = N /\ (forall f, In f fs -> lvf (abs m) f = false /\ face_num_edges m' f = Ok (n + k)) /\
      vp (abs m') (og (abs m') r) = Some y1 /\ vp (abs m') (target (abs m') r) = Some y /\
      exists l, hole (abs m') (l ++ [r]) /\ length (l ++ [r]) = N * (n - 1) /\
        map (fun e => vp (abs m') (og (abs m') e)) (l ++ [r]) = map Some (y :: rev (y1 :: ys)).
Proof. exact @loft_hem_numbers. Qed.
Print Assumptions C68_numbers.

(** Fewer payloads, [j] polygons and [r] more vertices: the hem stays open and the unfinished chain hangs on the boundary. *)
Theorem C68_open :
  forall (VP EP FP : Type) (dE : EP) (dF : FP) (c : cfg) (m : mesh VP EP FP) n k j r start t y ys a b d, wf m -> 2 <= n -> 2 <= k ->
    hole (abs m) (start :: t) -> NoDup (map (og (abs m)) (start :: t)) ->
    j * (k - 1) + k <= length (start :: t) -> length ys = j * (n - 1) + r -> r + 2 <= n ->
    fits c m (2 + 2 * n * j + 2 * r + a) (S (length ys) + b) (j + d) ->
    exists m' pre Bs s0 sp cs Ts w0 ws fs,
      loft_polygon_back dE dF c m start n k (y :: ys) = Ok (m', last (rev (map (tw (abs m')) cs) ++ concat Ts) start) /\ wf m' /\ fits c m' a b d /\
      length Bs = j /\ length cs = r /\ hem_open (abs m) (abs m') n k (t ++ [start]) (y :: rev ys) dF pre Bs s0 sp cs Ts w0 ws fs.
Proof. exact @loft_hem_open. Qed.
Print Assumptions C68_open.

(** The square with its boundary [2; 4; 7; 0]: a closed hem of pentagons with three corners outside (8 payloads), one with three corners
    inside (2 hexagons, 4 payloads), an open one. *)
Example C68_example : wf ex_square /\ hole (abs ex_square) [2; 4; 7; 0] /\ NoDup (map (og (abs ex_square)) [2; 4; 7; 0]) /\
  fits c0 ex_square (2 * 3 * 4) (4 * (3 - 1)) 4 /\
  (exists m' e, loft_polygon_back 0 7 c0 ex_square 2 3 2 [1; 2; 3; 4; 5; 6; 7; 8] = Ok (m', e) /\ wf m' /\ num_faces m' = 5 /\
     mapM (fun f => face_num_edges m' f) [1; 2; 3; 4] = Ok [5; 5; 5; 5]) /\
  (exists m' e, loft_polygon_back 0 7 c0 ex_square 2 3 3 [1; 2; 3; 4] = Ok (m', e) /\ wf m' /\ num_faces m' = 3 /\
     mapM (fun f => face_num_edges m' f) [1; 2] = Ok [6; 6]) /\
  (exists m' e, loft_polygon_back 0 7 c0 ex_square 2 4 2 [1; 2; 3; 4; 5; 6] = Ok (m', e) /\ wf m' /\ num_faces m' = 2).
Proof.
  split; [apply wfb_ok; vm_compute; reflexivity|].
  split; [split; [apply loopb_ok; vm_compute; reflexivity|intros x [<-|[<-|[<-|[<-|[]]]]]; reflexivity]|].
  split; [apply nodupb_ok; vm_compute; reflexivity|].
  split; [repeat split; apply Nat.leb_le; vm_compute; reflexivity|].
  split; [|split]; do 2 eexists; (split; [vm_compute; reflexivity|]); (split; [apply wfb_ok; vm_compute; reflexivity|]); try split; vm_compute; reflexivity.
Qed.

(** The conditions on the lengths are needed: with one payload more the last polygon ends in the additional vertex 6 instead of the
    first new vertex 3 and the hem stays open; with a boundary of five half-edges and [k = 3] the code panics. *)
Theorem C68_lengths_refuted :
  (exists (m0 m1 : mesh nat nat nat) e r, insert_polygon 0 7 c0 (@empty_mesh nat nat nat) [1; 2; 3] = Ok (m0, e) /\
     loft_polygon_back 0 7 c0 m0 e 2 2 [4; 5; 6; 7] = Ok (m1, r) /\ wf m1 /\
     mapM (fun f => face_vertices m1 f) (face_ids m1) = Ok [[0; 2; 1]; [3; 4; 0; 1]; [4; 5; 2; 0]; [5; 6; 1; 2]]) /\
  (exists (m0 : mesh nat nat nat) e, insert_polygon 0 7 c0 (@empty_mesh nat nat nat) [1; 2; 3; 4; 5] = Ok (m0, e) /\
     loft_polygon_back 0 7 c0 m0 e 2 3 [4; 5; 6; 7; 8; 9; 10] = Panic).
Proof.
  split; do 2 eexists; [do 2 eexists|]; (split; [vm_compute; reflexivity|]).
  - split; [vm_compute; reflexivity|]. split; [apply wfb_ok; vm_compute; reflexivity|vm_compute; reflexivity].
  - vm_compute; reflexivity.
Qed.
Print Assumptions C68_lengths_refuted.
