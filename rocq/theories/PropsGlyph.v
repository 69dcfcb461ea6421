(** Property C65: drawing glyph outlines and text. *)
From Coq Require Import List Arith QArith Bool.
From Verif Require Import Base DVec Mesh MeshMore Spec MeshSpec BuildSpec MeshEx Alg Transform TransEx Glyph GlyphSpec GlyphProofs GlyphPoints GlyphEx.
Import ListNotations.
Local Open Scope nat_scope.

(** C65. A glyph made up of closed outlines with at least three segments each: every outline becomes a ring of
    new vertices and edges with a face inside, in the order of the segments; the positions are the scaled and
    moved starts of the segments, and the edges carry the scaled and moved control points. Lines from a point to
    itself are skipped. Outlines inside others (holes) become faces of their own. *)
Theorem C65_glyph :
  forall (R : Type) (zero : R) (add mul : R -> R -> R) (FP : Type) (dF : FP) (same : vec R -> vec R -> bool)
      (c : cfg) scale x m ol cs a b d,
    wf m -> filter (real same) ol = concat cs -> Forall (contour same) cs ->
    fits c m (2 * length (concat cs) + a) (length (concat cs) + b) (length cs + d) ->
    exists m', draw_glyph zero add mul dF same c scale x m (Some ol) = Ok m' /\ wf m' /\ fits c m' a b d /\
      outlines_added zero (abs m) (abs m') dF (map (fun l => (place zero add mul scale x, l)) cs).
Proof. exact @glyph_ok. Qed.
Print Assumptions C65_glyph.

(** Text: every glyph is drawn at the sum of the advances of the glyphs before it and the kernings up to it;
    glyphs without outlines leave room but draw nothing. *)
Theorem C65_text :
  forall (R : Type) (zero : R) (add mul : R -> R -> R) (FP : Type) (dF : FP) (same : vec R -> vec R -> bool) (G : Type)
      (glyph : G -> option (list (outline R))) kern advance (cs : G -> list (list (outline R))) (c : cfg) scale m text a b d,
    wf m -> Forall (fun g => glyph_made same (glyph g) (cs g)) text ->
    fits c m (2 * length (concat (flat_map cs text)) + a) (length (concat (flat_map cs text)) + b) (length (flat_map cs text) + d) ->
    exists m', layout_text zero add mul dF same glyph kern advance c scale m text = Ok m' /\ wf m' /\ fits c m' a b d /\
      outlines_added zero (abs m) (abs m') dF (drawing zero add kern advance (place zero add mul scale) cs text).
Proof. exact @text_ok. Qed.
Print Assumptions C65_text.

Example C65_text_example :
  wf q_empty /\ Forall (fun g => glyph_made q_same (ex_glyph g) (ex_made g)) ex_text /\
  fits c0 q_empty (2 * length (concat (flat_map ex_made ex_text)) + 0) (length (concat (flat_map ex_made ex_text)) + 0)
    (length (flat_map ex_made ex_text) + 0) /\
  (pen_at 0%Q Qplus ex_kern ex_advance ex_text 3%nat == (9 + - (1 # 2)) + (3 + - (1 # 2)) + (5 + - (1 # 2)))%Q /\
  exists m', q_text c0 (1 # 2)%Q q_empty ex_text = Ok m' /\ num_faces m' = 5 /\ num_vertices m' = 17.
Proof.
  split; [exact ex_empty_wf|]. split; [apply Forall_forall; intros g _; apply made_ok|].
  split; [repeat split; apply Nat.leb_le; vm_compute; reflexivity|]. split; [vm_compute; reflexivity|].
  eexists. split; [vm_compute; reflexivity|]. split; vm_compute; reflexivity.
Qed.

(** The points of an outline drawn in this way, over the rationals, for every comparison of points that is right
    in the first [D] coordinates. Every segment but the last lies on the half-edge along it, parameter by
    parameter. The last segment is stored in the half-edge against it: that half-edge runs through the same
    points backwards exactly if the segment is not a cubic with two different control points. *)
Theorem C65_points :
  forall (FP : Type) (D : nat) (m : mesh (pnu Q) (curve Q) FP) dF s x l z es vs f (same : vec Q -> vec Q -> bool),
    wf m -> contour same (l ++ [z]) -> (forall a b, same a b = true -> forall i, i < D -> (a i == b i)%Q) ->
    outlined 0%Q (abs m) dF (place 0%Q Qplus Qmult s x) l z es vs f ->
    (forall k o, nth_error l k = Some o -> exists e, nth_error es k = Some e /\
       forall t, exists p, edge_point 1%Q Qplus Qmult Qminus m e t = Ok p /\ forall i, (p i == place 0%Q Qplus Qmult s x (o_point o t) i)%Q) /\
    exists e, nth_error es (length l) = Some e /\
      (((forall c d, o_curve z <> Cubic c d) \/ (exists c d, o_curve z = Cubic c d /\ forall i, i < D -> (c i == d i)%Q)) ->
       forall t, exists p, edge_point 1%Q Qplus Qmult Qminus m (tw (abs m) e) t = Ok p /\
         forall i, i < D -> (p i == place 0%Q Qplus Qmult s x (o_point z (1 - t)) i)%Q) /\
      forall c d i, i < D -> o_curve z = Cubic c d -> ~ (s == 0)%Q -> ~ (c i == d i)%Q ->
       exists t p, edge_point 1%Q Qplus Qmult Qminus m (tw (abs m) e) t = Ok p /\
         ~ (p i == place 0%Q Qplus Qmult s x (o_point z (1 - t)) i)%Q.
Proof. exact @outline_points. Qed.
Print Assumptions C65_points.

Example C65_points_example :
  contour q_same ex_outer /\ contour q_same ex_inner /\ contour q_same ex_drop /\
  (forall a b, q_same a b = true -> forall i, i < 2 -> (a i == b i)%Q) /\
  exists m' es vs f, q_draw c0 (1 # 2)%Q 3%Q q_empty (Some ex_drop) = Ok m' /\ wf m' /\
    outlined 0%Q (abs m') 7 (place 0%Q Qplus Qmult (1 # 2)%Q 3%Q) (firstn 2 ex_drop) drop_last es vs f.
Proof.
  split; [exact outer_contour|]. split; [exact inner_contour|]. split; [exact drop_contour|]. split; [exact q_same_ok|].
  destruct (@glyph_ok Q 0%Q Qplus Qmult nat 7 q_same c0 (1 # 2)%Q 3%Q q_empty ex_drop [ex_drop] 0 0 0 ex_empty_wf) as (m' & E & Wm & _ & ts & F & _).
  - reflexivity.
  - constructor; [exact drop_contour|constructor].
  - repeat split; apply Nat.leb_le; vm_compute; reflexivity.
  - inversion F as [|? [[es vs] f] ? ? (l & z & S1 & O) _]; subst. cbn [fst snd] in *. apply drop_split in S1 as [-> ->].
    exists m', es, vs, f. split; [exact E|]. split; [exact Wm|exact O].
Qed.

(** A contour that ends with a cubic is not drawn as given. *)
Theorem C65_closing_cubic_refuted :
  exists ol m' e t p, contour q_same (ol ++ [drop_last]) /\
    q_draw c0 1%Q 0%Q q_empty (Some (ol ++ [drop_last])) = Ok m' /\ wf m' /\ lv (abs m') e = true /\
    og (abs m') e = 0 /\ target (abs m') e = 2 /\
    q_point m' e t = Ok p /\ ~ (p 0%nat == place 0%Q Qplus Qmult 1%Q 0%Q (o_point drop_last (1 - t)) 0%nat)%Q.
Proof. exact drop_bad. Qed.
Print Assumptions C65_closing_cubic_refuted.

(** A closed outline of two segments (a lens) panics in debug builds: the edge that should close it exists. *)
Theorem C65_two_segments_refuted :
  forall (R : Type) (zero : R) (add mul : R -> R -> R) (FP : Type) (dF : FP) (same : vec R -> vec R -> bool)
      (c : cfg) scale x m o z a b d,
    wf m -> dbg c = true -> real same o = true -> real same z = true ->
    same (o_start o) (o_stop z) = true -> fits c m (2 + a) (2 + b) d ->
    draw_glyph zero add mul dF same c scale x m (Some [o; z]) = Panic.
Proof. exact @glyph_two. Qed.
Print Assumptions C65_two_segments_refuted.

Example C65_two_segments_example :
  let o := OQuad (q_xy 0 0) (q_xy 1 1) (q_xy 2 0) in let z := OQuad (q_xy 2 0) (q_xy 1 (-1)) (q_xy 0 0) in
  real q_same o = true /\ real q_same z = true /\ q_same (o_start o) (o_stop z) = true /\ linked [o; z] /\
  fits c0 q_empty (2 + 0) (2 + 0) 0 /\ q_draw c0 1%Q 0%Q q_empty (Some [o; z]) = Panic.
Proof.
  cbv zeta. split; [reflexivity|]. split; [reflexivity|]. split; [vm_compute; reflexivity|]. split; [cbn; auto|].
  split; [repeat split; apply Nat.leb_le; vm_compute; reflexivity|vm_compute; reflexivity].
Qed.

(** An outline that never returns to its start becomes an open path without a face. *)
Theorem C65_open :
  forall (R : Type) (zero : R) (add mul : R -> R -> R) (FP : Type) (dF : FP) (same : vec R -> vec R -> bool)
      (c : cfg) scale x m ol o l a b d,
    wf m -> filter (real same) ol = o :: l -> Forall (fun y => same (o_start o) (o_stop y) = false) l ->
    fits c m (2 * S (length l) + a) (S (S (length l)) + b) d ->
    let pl := place zero add mul scale x in
    exists m' es vs, draw_glyph zero add mul dF same c scale x m (Some ol) = Ok m' /\ wf m' /\ fits c m' a b d /\
      path_built (abs m) (abs m') es vs (map (fun p => u_from_pos zero (pl p)) (o_start o :: map (@o_stop R) (o :: l))).
Proof. exact @glyph_open. Qed.
Print Assumptions C65_open.

Example C65_open_example :
  exists o l, firstn 3 ex_outer = o :: l /\ filter (real q_same) (firstn 3 ex_outer) = o :: l /\
    Forall (fun y => q_same (o_start o) (o_stop y) = false) l /\
    fits c0 q_empty (2 * S (length l) + 0) (S (S (length l)) + 0) 0 /\
    exists m', q_draw c0 1%Q 0%Q q_empty (Some (firstn 3 ex_outer)) = Ok m' /\ num_faces m' = 0 /\ num_vertices m' = 4.
Proof.
  eexists _, _. split; [reflexivity|]. split; [reflexivity|]. split; [repeat constructor; vm_compute; reflexivity|].
  split; [repeat split; apply Nat.leb_le; vm_compute; reflexivity|].
  eexists. split; [vm_compute; reflexivity|]. split; vm_compute; reflexivity.
Qed.
