(** Property C90: the search tree of the sweep line. *)
From Coq Require Import List QArith.
From Verif Require Import Base TriSpec BufferSpec PolySpec SweepSpec Monotone GeoSpec Geo Sweep SweepTree SweepTreeSpec SweepTreeProofs SweepTreeEx SweepLarge.
Local Open Scope Q_scope.

(** C90. The position of an edge at a height lies on the edge. Edges without a common point compare by their order
    from right to left, at every height both reach, so the order of the tree does not change while the sweep line
    goes on. *)
Theorem C90_position : forall s y, spans s y -> on_edge s (so_x s y) y.
Proof. exact x_on_edge. Qed.
Print Assumptions C90_position.
Theorem C90_order : forall a b y, apart a b -> spans a y -> spans b y ->
  (so_cmp a b = Gt <-> so_x a y < so_x b y) /\ (so_cmp a b = Lt <-> so_x b y < so_x a y) /\ so_cmp a b <> Eq.
Proof. exact cmp_at. Qed.
Print Assumptions C90_order.
Theorem C90_sweep : forall y y' t, pairwise t -> ordered y t -> (forall s, In s t -> spans s y') -> ordered y' t.
Proof. exact ordered_lower. Qed.
Print Assumptions C90_sweep.

(** Insertion, removal and the delayed construction keep the order and change the edges as they should; the
    assertions on their answers hold. *)
Theorem C90_insert : forall y s t, pairwise (s :: t) -> ordered y t -> spans s y -> ~ In s t ->
  exists t', t_insert s t = (true, t') /\ ordered y t' /\ (forall e, In e t' <-> e = s \/ In e t).
Proof. exact insert_ok. Qed.
Print Assumptions C90_insert.
Theorem C90_remove : forall y s t, pairwise t -> ordered y t -> In s t ->
  exists t', t_remove s t = (true, t') /\ ordered y t' /\ (forall e, In e t' <-> In e t /\ e <> s).
Proof. exact remove_ok. Qed.
Print Assumptions C90_remove.
Theorem C90_init : forall vs M (left : list (option (interval M))) y,
  (forall k v, nth_error left k = Some (Some v) -> k = snd (i_left v) /\ exists s, from_interval vs v = Ok s /\ spans s y) ->
  (forall k v s k' v' s', nth_error left k = Some (Some v) -> nth_error left k' = Some (Some v') -> k <> k' ->
     from_interval vs v = Ok s -> from_interval vs v' = Ok s' -> apart s s') ->
  exists t, init_btree vs left = Ok t /\ tree_of vs left t /\ pairwise t /\ ordered y t.
Proof. exact init_ok. Qed.
Print Assumptions C90_init.

(** The operations of the status keep the tree in step with the stored intervals, and none of their assertions about
    the tree fails. *)
Theorem C90_status_insert : forall vs M dbg y (x : status M * option (list sorter)) v, in_step vs y x -> (dbg = true -> i_sanity v = Ok tt) ->
  nth_error (s_left (fst x)) (snd (i_left v)) = Some None -> (snd (i_right v) < length (s_right (fst x)))%nat ->
  (forall t, snd x = Some t -> exists s, from_interval vs v = Ok s /\ spans s y /\ forall e, In e t -> apart s e) ->
  exists t, bt_insert vs dbg x v = Ok (mkS (upd (s_left (fst x)) (snd (i_left v)) (Some v)) (upd (s_right (fst x)) (snd (i_right v)) (Some (snd (i_left v)))), t) /\
    (t = None <-> snd x = None) /\
    in_step vs y (mkS (upd (s_left (fst x)) (snd (i_left v)) (Some v)) (upd (s_right (fst x)) (snd (i_right v)) (Some (snd (i_left v)))), t).
Proof. exact insert_step. Qed.
Print Assumptions C90_status_insert.
Theorem C90_status_remove_left : forall vs M y (x : status M * option (list sorter)) k v,
  in_step vs y x -> nth_error (s_left (fst x)) k = Some (Some v) -> (snd (i_right v) < length (s_right (fst x)))%nat ->
  exists t, bt_remove_left vs x k = Ok (Some (v, (mkS (upd (s_left (fst x)) k None) (upd (s_right (fst x)) (snd (i_right v)) None), t))) /\
    (t = None <-> snd x = None) /\ in_step vs y (mkS (upd (s_left (fst x)) k None) (upd (s_right (fst x)) (snd (i_right v)) None), t).
Proof. exact remove_left_step. Qed.
Print Assumptions C90_status_remove_left.
Theorem C90_status_remove_right : forall vs M y (x : status M * option (list sorter)) key k v,
  in_step vs y x -> nth_error (s_right (fst x)) key = Some (Some k) -> nth_error (s_left (fst x)) k = Some (Some v) ->
  exists t, bt_remove_right vs x key = Ok (Some v, (mkS (upd (s_left (fst x)) k None) (upd (s_right (fst x)) key None), t)) /\
    (t = None <-> snd x = None) /\ in_step vs y (mkS (upd (s_left (fst x)) k None) (upd (s_right (fst x)) key None), t).
Proof. exact remove_right_step. Qed.
Print Assumptions C90_status_remove_right.

Theorem C90_unique : forall y t t', pairwise t -> ordered y t -> ordered y t' -> (forall s, In s t <-> In s t') -> t = t'.
Proof. exact ordered_unique. Qed.
Print Assumptions C90_unique.

(** The binary search gives what the linear search gives; in a debug build at every position inside an interval. *)
Theorem C90_find : forall vs M (left : list (option (interval M))) t p,
  disjoint_at vs left (snd p) -> tree_of vs left t -> pairwise t -> ordered (snd p) t ->
  find_btree vs false left t p = find_from vs 0 left p.
Proof. exact find_ok. Qed.
Print Assumptions C90_find.
Theorem C90_find_debug : forall vs M (left : list (option (interval M))) t p k v,
  disjoint_at vs left (snd p) -> tree_of vs left t -> pairwise t -> ordered (snd p) t ->
  nth_error left k = Some (Some v) -> i_contains vs v p = Ok true ->
  find_btree vs true left t p = Ok (Some k) /\ find_from vs 0 left p = Ok (Some k).
Proof. exact find_debug. Qed.
Print Assumptions C90_find_debug.
(** Outside of the intervals, but right of a left edge, the debug build panics, because the answer of the tree is
    compared before it is checked. *)
Theorem C90_debug_refuted : forall vs M (left : list (option (interval M))) t p k v xl xr,
  disjoint_at vs left (snd p) -> tree_of vs left t -> pairwise t -> ordered (snd p) t ->
  nth_error left k = Some (Some v) -> reaches vs v (snd p) xl xr -> xl <= fst p -> find_from vs 0 left p = Ok None ->
  find_btree vs true left t p = Panic /\ find_btree vs false left t p = Ok None.
Proof. exact find_outside. Qed.
Print Assumptions C90_debug_refuted.

(** The sweep with the tree, for more than eight vertices: what it returns covers the polygon. *)
Theorem C90_large_covers : forall (vs : list (pt * nat)) apos aneg dbg tol ix st ix',
  sweep_large vs (linear vs apos aneg) dbg tol ix = Ok (st, ix') -> all_closed st ->
  exists T, ix' = ix ++ flatten T /\ covers (map snd vs) T.
Proof. exact large_linear. Qed.
Print Assumptions C90_large_covers.
Theorem C90_large_delaunay_covers : forall (vs : list (pt * nat)) apos aneg convex incircle dbg' dbg tol ix st ix',
  sweep_large vs (delaunay dbg' vs apos aneg convex incircle) dbg tol ix = Ok (st, ix') -> all_closed st ->
  exists T, ix' = ix ++ flatten T /\ covers (map snd vs) T.
Proof. exact large_delaunay. Qed.
Print Assumptions C90_large_delaunay_covers.
(** A simple polygon with nine vertices, two towers, the lower one with a flat top: the release build gives its
    seven triangles, the debug build panics in the search. *)
Theorem C90_castle_refuted : exists vs, simple_polygon (map fst vs) /\ (0 < area2 (map fst vs))%Q /\
  forall tol, (0 <= tol < 1)%Q -> sweep_large vs (exact_linear vs) true tol nil = Panic /\
    exists st ix, sweep_large vs (exact_linear vs) false tol nil = Ok (st, ix) /\ all_closed st /\ length ix = 21%nat.
Proof. exact castle_refuted. Qed.
Print Assumptions C90_castle_refuted.

(** Two strips, a position in one of them and one between them. *)
Example C90_found : forall M, exists t, init_btree strips (two M) = Ok t /\ find_btree strips true (two M) t (7 # 2, 1) = Ok (Some 5%nat).
Proof. exact found. Qed.
Example C90_between : forall M, exists t, init_btree strips (two M) = Ok t /\
  find_btree strips true (two M) t (2, 1) = Panic /\ find_btree strips false (two M) t (2, 1) = Ok None.
Proof. exact between. Qed.
(** A status in step with its tree, from which an interval is taken. *)
Example C90_taken_out : forall M, exists t t' r, init_btree strips (two M) = Ok t /\ in_step strips 1 (mkS (two M) rights, Some t) /\
  bt_remove_left strips (mkS (two M) rights, Some t) 5 = Ok (Some (strip2 M, (mkS (upd (two M) 5 None) r, t'))).
Proof. exact taken_out. Qed.
