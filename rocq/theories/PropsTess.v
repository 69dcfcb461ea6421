(** Properties C27-C32, C35, C38: triangulation of vertex lists and the index buffer. *)
From Coq Require Import List Arith ZArith QArith Bool.
From Verif Require Import Base Tess TriSpec MinWeightSpec GeoSpec Geo Buffer BufferSpec VerifySpec.
From Verif Require Import TriFacts TessProofs StoreProofs MinWeightProofs QuadProofs BufferProofs WindingProofs VerifyProofs.
Import ListNotations.
Local Open Scope nat_scope.

(** C27. A fan over n >= 2 vertices triangulates the polygon; it only panics in a debug build on a
    face that is not planar and convex. *)
Theorem C27_fan_triangulates :
  forall dbg flat vs T, fan_triangulation dbg flat vs = Ok T -> 2 <= length vs -> triangulates vs T.
Proof. exact fan_ok. Qed.
Print Assumptions C27_fan_triangulates.

Theorem C27_fan_total :
  forall vs b, 1 <= length vs -> (exists T, fan_triangulation b true vs = Ok T) /\ (exists T, fan_triangulation false false vs = Ok T).
Proof. exact fan_total. Qed.
Print Assumptions C27_fan_total.

(** Every triangulation in the sense of [triangulates] has n - 2 triangles and its oriented
    boundaries sum to the boundary of the polygon. *)
Theorem C27_triangulation_size_and_boundary :
  forall p (T : list (nat * nat * nat)), triangulates p T -> 2 + length T = length p /\ covers p T.
Proof. exact triangulates_facts. Qed.
Print Assumptions C27_triangulation_size_and_boundary.

Example C27_example : fan_triangulation true true [7; 3; 5; 9] = Ok [(7, 3, 5); (7, 5, 9)].
Proof. reflexivity. Qed.

(** C28. Four vertices are always triangulated along one of the two diagonals. *)
Theorem C28_quad_triangulates :
  forall (P S : Type) (ds : P -> P -> S) le cv (vs : list (P * nat)) T,
    min_weight_quad ds le cv vs = Ok T -> triangulates (map snd vs) T.
Proof. exact quad_ok. Qed.
Print Assumptions C28_quad_triangulates.

Theorem C28_small_triangulates :
  forall (P S : Type) (ds : P -> P -> S) le cv (vs : list (P * nat)) T,
    try_min_weight_small_direct ds le cv vs = Ok (Some T) -> triangulates (map snd vs) T.
Proof. exact small_ok. Qed.
Print Assumptions C28_small_triangulates.

Theorem C28_small_total :
  forall (P S : Type) (ds : P -> P -> S) le cv (vs : list (P * nat)),
    exists o, try_min_weight_small_direct ds le cv vs = Ok o /\ (o = None <-> length vs <> 3 /\ length vs <> 4).
Proof. exact small_total. Qed.
Print Assumptions C28_small_total.

(** Which diagonal is used. Counter-clockwise, corners 0 and 2 convex (in particular strictly convex
    quads and quads with a reflex corner 1 or 3): always 1-3. *)
Theorem C28_even_corners_convex :
  forall pos p0 p1 p2 p3 i0 i1 i2 i3, sign_test pos ->
    (0 < orient p3 p0 p1)%Q -> (0 < orient p1 p2 p3)%Q ->
    quadQ pos [(p0, i0); (p1, i1); (p2, i2); (p3, i3)] = Ok [(i1, i2, i3); (i1, i3, i0)].
Proof. exact quad_even. Qed.
Print Assumptions C28_even_corners_convex.

(** Counter-clockwise with a reflex corner 0 or 2 (only 0-2 is valid): 0-2 iff 1-3 is strictly shorter. *)
Theorem C28_even_corner_reflex :
  forall pos p0 p1 p2 p3 i0 i1 i2 i3, sign_test pos ->
    (0 < orient p0 p1 p2)%Q -> (0 < orient p2 p3 p0)%Q -> (orient p3 p0 p1 < 0)%Q \/ (orient p1 p2 p3 < 0)%Q ->
    quadQ pos [(p0, i0); (p1, i1); (p2, i2); (p3, i3)] =
      Ok (if Qle_bool (distance_squared p0 p2) (distance_squared p1 p3)
          then [(i1, i2, i3); (i1, i3, i0)] else [(i0, i1, i2); (i0, i2, i3)]).
Proof. exact quad_reflex. Qed.
Print Assumptions C28_even_corner_reflex.

(** Clockwise, corners 1 and 3 convex: always 0-2. *)
Theorem C28_clockwise :
  forall pos p0 p1 p2 p3 i0 i1 i2 i3, sign_test pos ->
    (orient p0 p1 p2 < 0)%Q -> (orient p2 p3 p0 < 0)%Q ->
    quadQ pos [(p0, i0); (p1, i1); (p2, i2); (p3, i3)] = Ok [(i0, i1, i2); (i0, i2, i3)].
Proof. exact quad_cw. Qed.
Print Assumptions C28_clockwise.

Example C28_example :
  exists p0 p1 p2 p3, (0 < orient p3 p0 p1)%Q /\ (0 < orient p1 p2 p3)%Q /\ sign_test posQ /\
    quadQ posQ [(p0, 5); (p1, 6); (p2, 7); (p3, 8)] = Ok [(6, 7, 8); (6, 8, 5)].
Proof. exact quad_even_ex. Qed.
Example C28_reflex_example :
  exists p0 p1 p2 p3, (0 < orient p0 p1 p2)%Q /\ (0 < orient p2 p3 p0)%Q /\ (orient p3 p0 p1 < 0)%Q /\
    quadQ posQ [(p0, 5); (p1, 6); (p2, 7); (p3, 8)] = Ok [(5, 6, 7); (5, 7, 8)].
Proof. exact quad_reflex_ex. Qed.

(** Finding: a strictly convex counter-clockwise quad is cut along the five times longer diagonal. *)
Theorem C28_shorter_diagonal_refuted :
  exists pos p0 p1 p2 p3, sign_test pos /\
    (0 < orient p3 p0 p1)%Q /\ (0 < orient p0 p1 p2)%Q /\ (0 < orient p1 p2 p3)%Q /\ (0 < orient p2 p3 p0)%Q /\
    (dist2 p0 p2 < dist2 p1 p3)%Q /\
    quadQ pos [(p0, 0); (p1, 1); (p2, 2); (p3, 3)] = Ok [(1, 2, 3); (1, 3, 0)].
Proof. exact quad_longer. Qed.
Print Assumptions C28_shorter_diagonal_refuted.

(** Finding: a concave counter-clockwise quad is cut along the outer diagonal; a triangle is inverted. *)
Theorem C28_valid_diagonal_refuted :
  exists pos p0 p1 p2 p3, sign_test pos /\
    (orient p3 p0 p1 < 0)%Q /\ (0 < orient p0 p1 p2)%Q /\ (0 < orient p1 p2 p3)%Q /\ (0 < orient p2 p3 p0)%Q /\
    quadQ pos [(p0, 0); (p1, 1); (p2, 2); (p3, 3)] = Ok [(1, 2, 3); (1, 3, 0)] /\
    (orient p1 p3 p0 < 0)%Q.
Proof. exact quad_invalid. Qed.
Print Assumptions C28_valid_diagonal_refuted.

(** C29. Ear clipping, for every outcome of the predicates and of the random generator. *)
Theorem C29_ear_clipping_triangulates :
  forall (P : Type) cvx ins col rnd dbg randomize (vs : list (P * nat)) T, 3 <= length vs ->
    ear_clipping_direct cvx ins col rnd dbg randomize vs = Ok T -> triangulates (rev (map snd vs)) T.
Proof. exact ear_ok. Qed.
Print Assumptions C29_ear_clipping_triangulates.

Theorem C29_ear_clipping_terminates :
  forall (P : Type) cvx ins col rnd dbg randomize (vs : list (P * nat)),
    ear_clipping_direct cvx ins col rnd dbg randomize vs <> Diverge.
Proof. exact ear_terminates. Qed.
Print Assumptions C29_ear_clipping_terminates.

(** a pentagon in which the first corner is not accepted, so that the search moves on *)
Example C29_example :
  ear_clipping_direct (fun p _ _ => negb (p =? 11)) (fun _ _ _ _ => false) (fun _ _ _ => false) (fun k => 3 * k)
    true true [(10, 4); (11, 5); (12, 6); (13, 7); (14, 8)] = Ok [(5, 7, 6); (7, 4, 8); (5, 4, 7)].
Proof. vm_compute. reflexivity. Qed.

(** C30. Fan, quad and minimum-weight triangulations have the winding of the polygon (C27, C28, C31).
    Finding: ear clipping never has, for any polygon with distinct vertices. *)
Theorem C30_ear_clipping_winding_refuted :
  forall (P : Type) cvx ins col rnd dbg randomize (vs : list (P * nat)) T, 3 <= length vs -> NoDup (map snd vs) ->
    ear_clipping_direct cvx ins col rnd dbg randomize vs = Ok T -> ~ covers (map snd vs) T.
Proof. exact ear_winding. Qed.
Print Assumptions C30_ear_clipping_winding_refuted.

Example C30_example :
  ear_clipping_direct (fun _ _ _ => true) (fun _ _ _ _ => false) (fun _ _ _ => false) (fun k => k)
    true false [(10, 4); (11, 5); (12, 6); (13, 7)] = Ok [(4, 6, 5); (4, 7, 6)] /\ NoDup [4; 5; 6; 7].
Proof. split; [vm_compute; reflexivity|]. repeat constructor; cbn; intuition discriminate. Qed.

(** C31. For n >= 4: either the result is a triangulation by valid diagonals that is not heavier than
    any other one, or there is none and the function panics. *)
Theorem C31_minimum_weight :
  forall (P W : Type) addW ltW (zeroW : W) (distance : P -> P -> W), weights addW ltW zeroW ->
  forall vd dbg (ps : nat -> P) ind n, 4 <= n ->
    (exists L, minweight_dynamic_direct addW ltW zeroW distance dbg vd (vlist ps ind n) = Ok (map (relabel ind) L) /\
       triangulates (seq 0 n) L /\ uses_valid vd n L /\
       forall L', triangulates (seq 0 n) L' -> uses_valid vd n L' ->
         ltW (total addW zeroW (fun a b => distance (ps a) (ps b)) L')
             (total addW zeroW (fun a b => distance (ps a) (ps b)) L) = false) \/
    (minweight_dynamic_direct addW ltW zeroW distance dbg vd (vlist ps ind n) = Panic /\
       forall L', triangulates (seq 0 n) L' -> ~ uses_valid vd n L').
Proof. exact minweight_full. Qed.
Print Assumptions C31_minimum_weight.

Theorem C31_small_panics :
  forall (P W : Type) addW ltW (zeroW : W) (distance : P -> P -> W) vd dbg (ps : nat -> P) ind n, n < 4 ->
    minweight_dynamic_direct addW ltW zeroW distance dbg vd (vlist ps ind n) = Panic.
Proof. exact minweight_small. Qed.
Print Assumptions C31_small_panics.

(** natural numbers are weights; a pentagon on a line with squared distances *)
Example C31_weights : weights Nat.add Nat.ltb 0.
Proof. exact nat_weights. Qed.
Example C31_example :
  minweight_dynamic_direct Nat.add Nat.ltb 0 (fun a b => (a - b) * (a - b) + (b - a) * (b - a)) true
    (fun i j => negb ((i =? 2) && (j =? 4))) (vlist (fun i => nth i [0; 9; 4; 7; 2] 0) (fun i => 20 + i) 5)
  = Ok [(20, 21, 24); (21, 23, 24); (21, 22, 23)].
Proof. vm_compute. reflexivity. Qed.

(** C32. The triangular table behaves like a map on pairs i < j < n. *)
Theorem C32_index_injective :
  forall (A : Type) dbg (s : store A) n i j i' j', st_ok s n -> i < j -> j < n -> i' < j' -> j' < n ->
    exists k k', st_index dbg s i j = Ok k /\ st_index dbg s i' j' = Ok k' /\ k < length (st_data s) /\
      (k = k' -> i = i' /\ j = j').
Proof. exact store_injective. Qed.
Print Assumptions C32_index_injective.

Theorem C32_get_set :
  forall (A : Type) dbg (s : store A) n i j a, st_ok s n -> i < j -> j < n ->
    exists s', st_set dbg s i j a = Ok s' /\ st_ok s' n /\ st_get dbg s' i j = Ok a /\
      forall i' j', i' < j' -> j' < n -> (i', j') <> (i, j) -> st_get dbg s' i' j' = st_get dbg s i' j'.
Proof. exact store_get_set. Qed.
Print Assumptions C32_get_set.

Theorem C32_new :
  forall (A : Type) dbg n (a : A), 2 <= n ->
    exists s, st_new n a = Ok s /\ st_ok s n /\ forall i j, i < j -> j < n -> st_get dbg s i j = Ok a.
Proof. exact store_new. Qed.
Print Assumptions C32_new.

Example C32_example :
  (let* s := st_new 5 0 in let* s := st_set true s 1 3 7 in let* s := st_set true s 0 4 8 in
   let* x := st_get true s 1 3 in let* y := st_get true s 0 4 in let* z := st_get true s 2 3 in Ok (x, y, z)) = Ok (7, 8, 0).
Proof. reflexivity. Qed.

(** C35. [flip_edge] on two triangles of the buffer: it replaces a-b-c, a-d-b by a-d-c, d-b-c in place, or
    reports an error, which (for triangles with distinct corners) means that the edge is not there. *)
Theorem C35_flip_edge :
  forall pre T i j a b r, i <> j -> i < length T -> j < length T ->
    flip_indices (pre ++ flatten T) a b (length pre + 3 * i) (length pre + 3 * j) = Ok r ->
    match r with
    | Some ix => exists T', ix = pre ++ flatten T' /\ flipped a b i j T T'
    | None => forall t u c d, nth_error T i = Some t -> nth_error T j = Some u -> distinct3 t -> distinct3 u ->
        rot3 (a, b, c) t -> rot3 (a, d, b) u -> False
    end.
Proof. exact flip_slots. Qed.
Print Assumptions C35_flip_edge.

Theorem C35_flip_total :
  forall pre T i j a b, i < length T -> j < length T ->
    exists r, flip_indices (pre ++ flatten T) a b (length pre + 3 * i) (length pre + 3 * j) = Ok r.
Proof. exact flip_total. Qed.
Print Assumptions C35_flip_total.

Theorem C35_flip_covers :
  forall p a b i j T T', i <> j -> flipped a b i j T T' -> covers p T -> covers p T'.
Proof. exact flip_covers. Qed.
Print Assumptions C35_flip_covers.

Example C35_example :
  flip_indices ([9; 9; 9] ++ flatten [(0, 1, 2); (5, 6, 7); (3, 2, 1)]) 1 2 3 9 =
    Ok (Some ([9; 9; 9] ++ flatten [(1, 3, 0); (5, 6, 7); (3, 2, 0)])).
Proof. reflexivity. Qed.

(** C38. [verify_non_degenerate_triangle] looks at the triangles from number [length pre] on, where
    [pre] is the buffer before the triangulation was created: at all of them only if [pre] is empty. *)
Theorem C38_non_degenerate :
  forall (P : Type) (hm : nat -> option P) negative pre T,
    verify_non_degenerate hm negative (after pre T) = Ok tt <-> Forall (sound hm negative) (skipn (length pre) T).
Proof. exact non_degenerate_iff. Qed.
Print Assumptions C38_non_degenerate.

Theorem C38_total_edge_weight :
  forall (P : Type) (hm : nat -> option P) dist pre T, known hm T ->
    exists w, total_edge_weight hm dist (after pre T) = Ok w /\ perimeters hm dist (skipn (length pre) T) w.
Proof. exact weight_ok. Qed.
Print Assumptions C38_total_edge_weight.

(** [verify_no_intersections] skips as many new triangles as the buffer already held. *)
Theorem C38_no_intersections :
  forall (P : Type) (hm : nat -> option P) meets p pre T, length pre = 3 * p -> known hm T ->
    verify_no_intersections hm meets (after pre T) = Ok tt <->
    forall i j t u, p <= i -> p <= j -> i <> j -> nth_error T i = Some t -> nth_error T j = Some u ->
      forall k l, k < 3 -> l < 3 -> apart hm meets (side t k) (side u l).
Proof. exact no_intersections_iff. Qed.
Print Assumptions C38_no_intersections.

Theorem C38_all_indices_used :
  forall pre ix vs, verify_all_indices_used vs (mkB (pre ++ ix) (length pre)) = Ok tt <->
    NoDup vs /\ forall x, In x vs <-> In x ix.
Proof. exact all_used_iff. Qed.
Print Assumptions C38_all_indices_used.

Example C38_example :
  let hm := fun x => if x <? 9 then Some (Z.of_nat x) else None in
  known hm [(0, 1, 2); (2, 1, 3); (3, 4, 5); (6, 7, 8)] /\
  verify_no_intersections hm (fun a b c d => (a + b + c + d =? 9)%Z) (after [] [(0, 1, 2); (2, 1, 3); (3, 4, 5); (6, 7, 8)]) = Panic /\
  verify_no_intersections hm (fun a b c d => (a + b + c + d =? 9)%Z) (after [0; 0; 0] [(0, 1, 2); (2, 1, 3); (3, 4, 5); (6, 7, 8)]) = Ok tt.
Proof.
  split; [repeat constructor; do 3 eexists; repeat split; reflexivity|]. repeat split; vm_compute; reflexivity.
Qed.

(** Finding: a second triangulation in the same buffer passes although its only triangle is inverted. *)
Theorem C38_checks_all_triangles_refuted :
  exists (hm : nat -> option Z) negative pre T,
    verify_non_degenerate hm negative (after pre T) = Ok tt /\ Forall (fun t => ~ sound hm negative t) T /\ T <> [].
Proof. exact unchecked_triangle. Qed.
Print Assumptions C38_checks_all_triangles_refuted.

(** Finding: [verify_area] accepts every area between zero and twice the reference, and no triangles at all. *)
Theorem C38_verify_area_refuted :
  forall (P : Type) (hm : nat -> option P) area2 eps reference pre, (0 <= eps)%Q ->
    verify_area hm area2 eps reference (after pre []) = Ok tt.
Proof. exact area_empty. Qed.
Print Assumptions C38_verify_area_refuted.

Theorem C38_verify_area_accepts_refuted :
  forall (P : Type) (hm : nat -> option P) area2 eps reference t a,
    (0 <= eps)%Q -> (0 < reference)%Q -> get_area hm area2 t = Ok a -> (0 <= a)%Q -> (a <= 2 * reference)%Q ->
    verify_area hm area2 eps reference t = Ok tt.
Proof. exact area_accepts. Qed.
Print Assumptions C38_verify_area_accepts_refuted.
