(** Properties C33, C34, C36, C37, C57: monotone triangulators and the sweep. *)
From Coq Require Import List Arith Bool QArith.
From Verif Require Import Base Mesh Tess Monotone TriSpec BufferSpec MinWeightSpec GeoSpec Geo MonoSpec PolySpec Sweep SweepSpec.
From Verif Require Import LinearProofs DynamicProofs DelaunayProofs SweepEx SweepFacts.
Import ListNotations.
Local Open Scope nat_scope.

(** C33. If the linear triangulator finishes, it has triangulated the polygon of both chains. *)
Theorem C33_linear_triangulates :
  forall (P : Type) (vs : list (P * nat)) apos aneg v ops pre ix, ops <> [] ->
    m_run (linear vs apos aneg) v ops pre = Ok ix ->
    exists T, ix = pre ++ flatten T /\ triangulates (map (index_at vs) (chain_poly v ops)) T.
Proof. exact linear_run. Qed.
Print Assumptions C33_linear_triangulates.

(** At any time the emitted triangles together with a triangulation of the stack triangulate the polygon. *)
Theorem C33_linear_invariant :
  forall (P : Type) (vs : list (P * nat)) apos aneg v ops pre s ix, ops <> [] ->
    m_steps ops (m_new (linear vs apos aneg) v, pre) = Ok (s, ix) ->
    exists U, ix = pre ++ flatten (map (relabel (index_at vs)) U) /\ forall T',
      triangulates (match l_d s with DLeft => rev (l_stack s) | _ => l_stack s end) T' ->
      triangulates (chain_poly v ops) (U ++ T').
Proof. exact linear_prefix. Qed.
Print Assumptions C33_linear_invariant.

(** Insertions never panic; [finish] panics exactly if more than two vertices are left on the stack. *)
Theorem C33_linear_total :
  forall (P : Type) (vs : list (P * nat)) apos aneg v ops pre, v < length vs -> Forall (fun o => snd o < length vs) ops ->
    exists s ix, m_steps ops (m_new (linear vs apos aneg) v, pre) = Ok (s, ix) /\
      m_run (linear vs apos aneg) v ops pre = (if length (l_stack s) <=? 2 then Ok ix else Panic).
Proof. exact lin_total. Qed.
Print Assumptions C33_linear_total.

(** two left insertions of which the second is blocked, then the opposite chain *)
Example C33_example :
  m_run (linear [(tt, 10); (tt, 11); (tt, 12); (tt, 13)] (fun _ _ _ => true) (fun _ _ _ => false))
    0 [(true, 1); (true, 2); (false, 3)] [7] = Ok [7; 10; 11; 13; 11; 12; 13].
Proof. reflexivity. Qed.

(** C34. [finish] hands the left chain followed by the reversed right chain to the small or to the
    minimum-weight triangulation. *)
Theorem C34_dynamic_delegates :
  forall (P : Type) (vs : list (P * nat)) small weight v ops pre,
    m_run (dynamic vs small weight) v ops pre =
    let* us := gather vs (chain_poly v ops) in
    let* o := small us in
    let* T := match o with Some T => Ok T | None => weight us end in
    Ok (pre ++ flatten T).
Proof. exact dyn_run. Qed.
Print Assumptions C34_dynamic_delegates.

Theorem C34_dynamic_triangulates :
  forall (P W : Type) (addW : W -> W -> W) ltW zeroW (distance : P -> P -> W) (S : Type) (ds : P -> P -> S) le cv dbg vd
    (vs : list (P * nat)) v ops pre ix, weights addW ltW zeroW ->
    m_run (dynamic vs (try_min_weight_small_direct ds le cv) (minweight_dynamic_direct addW ltW zeroW distance dbg vd)) v ops pre = Ok ix ->
    exists T, ix = pre ++ flatten T /\ triangulates (map (index_at vs) (chain_poly v ops)) T.
Proof. exact dynamic_run. Qed.
Print Assumptions C34_dynamic_triangulates.

(** From five vertices on the weight is minimal, or no valid triangulation exists and it panics. *)
Theorem C34_dynamic_minimum :
  forall (P W : Type) (addW : W -> W -> W) ltW zeroW (distance : P -> P -> W), weights addW ltW zeroW ->
  forall (S : Type) (ds : P -> P -> S) le cv dbg vd (ps : nat -> P) (ind : nat -> nat) N v ops pre,
    let l := chain_poly v ops in let n := length l in
    let run := m_run (dynamic (vlist ps ind N) (try_min_weight_small_direct ds le cv)
                 (minweight_dynamic_direct addW ltW zeroW distance dbg vd)) v ops pre in
    let w L := total addW zeroW (fun a b => distance (ps (nth a l 0)) (ps (nth b l 0))) L in
    5 <= n -> Forall (fun i => i < N) l ->
    (exists L, run = Ok (pre ++ flatten (map (relabel (fun k => ind (nth k l 0))) L)) /\
       triangulates (seq 0 n) L /\ uses_valid vd n L /\
       forall L', triangulates (seq 0 n) L' -> uses_valid vd n L' -> ltW (w L') (w L) = false) \/
    (run = Panic /\ forall L', triangulates (seq 0 n) L' -> ~ uses_valid vd n L').
Proof. exact dynamic_minimum. Qed.
Print Assumptions C34_dynamic_minimum.

Example C34_example :
  m_run (dynamic (map (fun i => (i, 20 + i)) (seq 0 5)) (try_min_weight_small_direct (fun a b => a + b) Nat.leb (fun _ _ _ => true))
    (minweight_dynamic_direct Nat.add Nat.ltb 0 (fun a b => a * b) true (fun _ _ => true)))
    0 [(true, 1); (false, 4); (true, 2); (false, 3)] [] = Ok [20; 23; 24; 20; 22; 23; 20; 21; 22].
Proof. vm_compute. reflexivity. Qed.

(** C36. On distinct vertices the Delaunay triangulator goes through the same stacks as the linear one
    and emits as many triangles. No insertion panics and legalisation ends; only [finish] can panic,
    and it does so exactly if the linear variant does. *)
Theorem C36_delaunay_like_linear :
  forall (P : Type) (vs : list (P * nat)) apos aneg convex incircle dbg v ops pre,
    NoDup (map snd vs) -> NoDup (v :: map snd ops) -> v < length vs -> Forall (fun o => snd o < length vs) ops -> ops <> [] ->
    exists s e ix jx, m_steps ops (m_new (linear vs apos aneg) v, pre) = Ok (s, jx) /\
      m_steps ops (m_new (delaunay dbg vs apos aneg convex incircle) v, pre) = Ok (e, ix) /\
      e_stack e = l_stack s /\ e_d e = l_d s /\ length ix = length jx /\
      m_run (linear vs apos aneg) v ops pre = (if length (l_stack s) <=? 2 then Ok jx else Panic) /\
      m_run (delaunay dbg vs apos aneg convex incircle) v ops pre = (if length (l_stack s) <=? 2 then Ok ix else Panic).
Proof. exact delaunay_like_linear. Qed.
Print Assumptions C36_delaunay_like_linear.

(** If it finishes, it has triangulated the polygon of both chains. *)
Theorem C36_delaunay_triangulates :
  forall (P : Type) (vs : list (P * nat)) apos aneg convex incircle dbg v ops pre ix,
    NoDup (map snd vs) -> NoDup (v :: map snd ops) -> v < length vs -> Forall (fun o => snd o < length vs) ops -> ops <> [] ->
    m_run (delaunay dbg vs apos aneg convex incircle) v ops pre = Ok ix ->
    exists T, ix = pre ++ flatten T /\ triangulates (map (index_at vs) (chain_poly v ops)) T.
Proof. exact delaunay_run. Qed.
Print Assumptions C36_delaunay_triangulates.

(** At any time its triangles and a triangulation of the stack triangulate the polygon. *)
Theorem C36_delaunay_invariant :
  forall (P : Type) (vs : list (P * nat)) apos aneg convex incircle dbg v ops pre e ix,
    NoDup (map snd vs) -> NoDup (v :: map snd ops) -> v < length vs -> Forall (fun o => snd o < length vs) ops -> ops <> [] ->
    m_steps ops (m_new (delaunay dbg vs apos aneg convex incircle) v, pre) = Ok (e, ix) ->
    exists U, ix = pre ++ flatten (map (relabel (index_at vs)) U) /\ forall T',
      triangulates (match e_d e with DLeft => rev (e_stack e) | _ => e_stack e end) T' ->
      triangulates (chain_poly v ops) (U ++ T').
Proof. exact delaunay_prefix. Qed.
Print Assumptions C36_delaunay_invariant.

(** Finding: if a vertex occurs twice, the linear triangulator finishes but the Delaunay one may
    panic: at a repeated mesh vertex in the flip, at a repeated list entry in [stack_edge]. *)
Theorem C36_repeated_mesh_vertex_refuted :
  exists (vs : list (unit * nat)) v ops apos aneg convex incircle, NoDup (v :: map snd ops) /\
    v < length vs /\ Forall (fun o => snd o < length vs) ops /\
    (exists ix, m_run (linear vs apos aneg) v ops [] = Ok ix) /\
    forall dbg, m_run (delaunay dbg vs apos aneg convex incircle) v ops [] = Panic.
Proof. exact repeated_mesh_vertex. Qed.
Print Assumptions C36_repeated_mesh_vertex_refuted.

Theorem C36_repeated_entry_refuted :
  exists (vs : list (unit * nat)) v ops apos aneg convex incircle, NoDup (map snd vs) /\
    v < length vs /\ Forall (fun o => snd o < length vs) ops /\
    (exists ix, m_run (linear vs apos aneg) v ops [] = Ok ix) /\
    forall dbg, m_run (delaunay dbg vs apos aneg convex incircle) v ops [] = Panic.
Proof. exact repeated_entry. Qed.
Print Assumptions C36_repeated_entry_refuted.

(** every flip allowed: the Delaunay run ends with other triangles than the linear one *)
Definition C36_vs := combine (seq 0 6) (seq 10 6).
Definition C36_ops := [(true, 1); (false, 2); (true, 3); (false, 4); (false, 5)].
Example C36_example :
  NoDup (map snd C36_vs) /\ NoDup (0 :: map snd C36_ops) /\ Forall (fun o => snd o < length C36_vs) C36_ops /\
  m_run (linear C36_vs (fun _ _ _ => false) (fun _ _ _ => false)) 0 C36_ops [7]
    = Ok [7; 10; 11; 12; 11; 13; 12; 12; 13; 14; 14; 13; 15] /\
  m_run (delaunay true C36_vs (fun _ _ _ => false) (fun _ _ _ => false) (fun _ _ _ => true) (fun _ _ _ _ => true)) 0 C36_ops [7]
    = Ok [7; 12; 10; 11; 13; 15; 14; 11; 13; 12; 12; 13; 14].
Proof.
  split; [repeat constructor; cbn; intuition discriminate|]. split; [repeat constructor; cbn; intuition discriminate|].
  split; [repeat constructor|]. split; vm_compute; reflexivity.
Qed.

(** C37. If the sweep ends with all intervals closed, its triangles cover the polygon; their number is
    n - 2 starts + 2 merges. This holds for every order and classification of the events and for
    every answer of the interval search. *)
Theorem C37_sweep_linear_covers :
  forall (P : Type) (vs : list (P * nat)) apos aneg dbg find es pre st ix,
    let M := linear vs apos aneg in
    sweep (M := M) dbg find (length vs) es pre = Ok (st, ix) -> queue_of (length vs) es -> all_closed st ->
    exists T, ix = pre ++ flatten T /\ covers (map snd vs) T /\
      length T + 2 * tally dbg find (starts find) es (s_new M (length vs), pre)
      = length vs + 2 * tally dbg find (@merges M) es (s_new M (length vs), pre).
Proof. exact sweep_linear. Qed.
Print Assumptions C37_sweep_linear_covers.

Theorem C37_sweep_dynamic_covers :
  forall (P W : Type) (addW : W -> W -> W) ltW zeroW (distance : P -> P -> W) (S : Type) (ds : P -> P -> S) le cv dbg' vd
    (vs : list (P * nat)) dbg find es pre st ix, weights addW ltW zeroW ->
    let M := dynamic vs (try_min_weight_small_direct ds le cv) (minweight_dynamic_direct addW ltW zeroW distance dbg' vd) in
    sweep (M := M) dbg find (length vs) es pre = Ok (st, ix) -> queue_of (length vs) es -> all_closed st ->
    exists T, ix = pre ++ flatten T /\ covers (map snd vs) T /\
      length T + 2 * tally dbg find (starts find) es (s_new M (length vs), pre)
      = length vs + 2 * tally dbg find (@merges M) es (s_new M (length vs), pre).
Proof. exact sweep_dynamic. Qed.
Print Assumptions C37_sweep_dynamic_covers.

Theorem C37_sweep_delaunay_covers :
  forall (P : Type) (vs : list (P * nat)) apos aneg convex incircle dbg' dbg find es pre st ix,
    let M := delaunay dbg' vs apos aneg convex incircle in
    sweep (M := M) dbg find (length vs) es pre = Ok (st, ix) -> queue_of (length vs) es -> all_closed st ->
    exists T, ix = pre ++ flatten T /\ covers (map snd vs) T /\
      length T + 2 * tally dbg find (starts find) es (s_new M (length vs), pre)
      = length vs + 2 * tally dbg find (@merges M) es (s_new M (length vs), pre).
Proof. exact sweep_delaunay. Qed.
Print Assumptions C37_sweep_delaunay_covers.

(** The same for the geometric predicates over the rationals, up to eight vertices. *)
Theorem C37_sweep_small_covers :
  forall (vs : list (pt * nat)) apos aneg dbg tol ix st ix',
    sweep_small vs (linear vs apos aneg) dbg tol ix = Ok (st, ix') -> all_closed st ->
    exists T, ix' = ix ++ flatten T /\ covers (map snd vs) T.
Proof. exact small_linear. Qed.
Print Assumptions C37_sweep_small_covers.

Theorem C37_sweep_small_delaunay_covers :
  forall (vs : list (pt * nat)) apos aneg convex incircle dbg' dbg tol ix st ix',
    sweep_small vs (delaunay dbg' vs apos aneg convex incircle) dbg tol ix = Ok (st, ix') -> all_closed st ->
    exists T, ix' = ix ++ flatten T /\ covers (map snd vs) T.
Proof. exact small_delaunay. Qed.
Print Assumptions C37_sweep_small_delaunay_covers.

(** Finding: the sweep does not check that all intervals are closed; it returns normally with no triangles. *)
Theorem C37_open_intervals_refuted :
  exists (vs : list (unit * nat)) es, queue_of (length vs) es /\
    forall apos aneg find pre, exists st,
      sweep (M := linear vs apos aneg) true find (length vs) es pre = Ok (st, pre) /\ ~ all_closed st /\ ~ covers (map snd vs) [].
Proof. exact open_missed. Qed.
Print Assumptions C37_open_intervals_refuted.

(** a polygon with a split vertex, and one with a merge vertex *)
Definition C37_points (l : list (Z * Z)) : list (pt * nat) :=
  combine (map (fun p => (inject_Z (fst p), inject_Z (snd p))) l) (seq 0 (length l)).
Definition C37_run (l : list (Z * Z)) :=
  match sweep_small (C37_points l) (linear (C37_points l) (fun p q r => Qlt_b 0 (orient p q r)) (fun p q r => Qlt_b (orient p q r) 0)) true 0 [] with
  | Ok (st, ix) => Some (ix, forallb (fun o => match o with None => true | _ => false end) (s_left st))
  | _ => None
  end.
Example C37_split_example :
  C37_run [(0, 10); (-6, 0); (0, 3); (6, 0); (5, 5)]%Z = Some ([4; 0; 2; 2; 3; 4; 0; 1; 2], true).
Proof. vm_compute. reflexivity. Qed.
Example C37_merge_example :
  C37_run [(-4, 6); (0, -5); (4, 6); (0, 2)]%Z = Some ([2; 3; 1; 0; 1; 3], true).
Proof. vm_compute. reflexivity. Qed.

(** the pentagon with a split vertex again, where the incircle test asks for flips *)
Definition C37_run_delaunay (l : list (Z * Z)) :=
  let pos p q r := Qlt_b 0 (orient p q r) in let neg p q r := Qlt_b (orient p q r) 0 in
  match sweep_small (C37_points l) (delaunay true (C37_points l) pos neg (fun _ _ _ => true)
      (fun _ _ _ _ => true)) true 0 [] with
  | Ok (st, ix) => Some (ix, forallb (fun o => match o with None => true | _ => false end) (s_left st))
  | _ => None
  end.
Example C37_delaunay_example :
  C37_run_delaunay [(0, 10); (-6, 0); (0, 3); (6, 0); (5, 5)]%Z = Some ([0; 1; 2; 2; 3; 4; 4; 0; 2], true).
Proof. vm_compute. reflexivity. Qed.

(** C57. Finding: the sweep panics on a simple counter-clockwise pentagon, with each of the three
    monotone triangulators, whatever the remaining predicates answer and in release builds too. *)
Theorem C57_simple_polygon_linear_refuted :
  exists vs, simple_polygon (map fst vs) /\ (0 < area2 (map fst vs))%Q /\
    forall apos aneg tol dbg ix, (0 <= tol < 1)%Q -> sweep_small vs (linear vs apos aneg) dbg tol ix = Panic.
Proof. exact simple_panics_linear. Qed.
Print Assumptions C57_simple_polygon_linear_refuted.

Theorem C57_simple_polygon_dynamic_refuted :
  exists vs, simple_polygon (map fst vs) /\ (0 < area2 (map fst vs))%Q /\
    forall small weight tol dbg ix, (0 <= tol < 1)%Q -> sweep_small vs (dynamic vs small weight) dbg tol ix = Panic.
Proof. exact simple_panics_dynamic. Qed.
Print Assumptions C57_simple_polygon_dynamic_refuted.

Theorem C57_simple_polygon_delaunay_refuted :
  exists vs, simple_polygon (map fst vs) /\ (0 < area2 (map fst vs))%Q /\
    forall dbg' apos aneg convex incircle tol dbg ix, (0 <= tol < 1)%Q ->
      sweep_small vs (delaunay dbg' vs apos aneg convex incircle) dbg tol ix = Panic.
Proof. exact simple_panics_delaunay. Qed.
Print Assumptions C57_simple_polygon_delaunay_refuted.
