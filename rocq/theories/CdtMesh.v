(** The choice of triangles on a mesh. *)
From Coq Require Import List Arith Bool ZArith Reals Lra Lia Permutation.
From Verif Require Import Base DVec Mesh MeshMore Tess Spec Rep MeshSpec MeshProofs MeshFacts Traverse TriSpec TriFacts AlgProofs TopoSpec IsoProofs NetProofs TriMesh TriMeshSpec TriMeshProofs Cdt CdtSpec CdtProofs.
Import ListNotations.
Set Implicit Arguments.
Unset Strict Implicit.
Local Arguments abs : simpl never.

Lemma tri_map_ids (h : nat -> nat) a l b T : tri a l b T -> tri (h a) (map h l) (h b) (map (fun t => match t with (x, y, z) => (h x, h y, h z) end) T).
Proof.
  intros H. induction H.
  - constructor.
  - rewrite map_app. cbn [map]. rewrite map_app. apply tri_node; auto.
  - eapply tri_perm; [|exact IHtri]. apply Permutation_map. auto.
  - cbn [map] in *. apply tri_turn. auto.
Qed.
Lemma lift_triangulates l T : triangulates (seq 0 (length l)) T -> triangulates l (map (lift3 l) T).
Proof.
  intros (a & k & b & E & H). exists (nth a l 0), (map (fun i => nth i l 0) k), (nth b l 0). split; [|exact (tri_map_ids (fun i => nth i l 0) H)].
  transitivity (map (fun i => nth i l 0) (seq 0 (length l))).
  - clear. induction l as [|x l IH]; auto. cbn [length seq map nth]. f_equal. rewrite <- seq_shift, map_map. exact IH.
  - rewrite E. cbn [map]. rewrite map_app. reflexivity.
Qed.

Section CdtMesh.
  Context {VP EP FP : Type}.
  Variables (m : mesh VP EP FP) (c : cfg) (f : nat) (us : list (rvec2 * nat)) (eps : R) (D : list tri3) (keep : tri3 -> bool).
  Notation g := (abs m).
  Notation ps := (map fst us).
  Notation l := (map snd us).
  Notation n := (length ps).
  Hypothesis Wm : wf m.
  Hypothesis LF : lvf g f = true.
  Hypothesis BV : boundary_vertices g f l.
  Hypothesis AL : alone g f l.
  Hypothesis CT : constrained ps D.
  Hypothesis KEEP : triangulates (seq 0 n) (filter keep D).
  Hypothesis E0 : (0 < eps)%R.
  Hypothesis FAR : spread eps ps.
  Hypothesis N3 : 3 <= n.
  Notation nxt := (next ps).
  Notation at_ i := (nth i l 0).
  Lemma len_l : length l = n. Proof. rewrite !map_length. reflexivity. Qed.
  Lemma at_inj i j : i < n -> j < n -> at_ i = at_ j -> i = j.
  Proof. intros A B E. apply (proj1 (NoDup_nth l 0) (proj1 AL)); auto; rewrite len_l; auto. Qed.
  Lemma at_in i : i < n -> In (at_ i) l.
  Proof. intros A. apply nth_In. rewrite len_l. auto. Qed.
  (** the half-edges of the face and the sides of the polygon *)
  Lemma side_edge i : i < n -> exists e, lv g e = true /\ fc g e = Some f /\ og g e = at_ i /\ og g (tw g e) = at_ (nxt i).
  Proof.
    intros I. destruct (face_sides Wm LF BV) as (es & PE & _ & _ & SE). rewrite (poly_edges_nth _ 0) in PE.
    assert (X : In (at_ i, at_ (nxt i)) (arrows g es)).
    { rewrite <- PE. apply in_map_iff. exists i. rewrite len_l. split; auto. apply in_seq. lia. }
    apply in_map_iff in X as (e & X & J). injection X as X1 X2. apply SE in J as (L & k & F & <-). exists e. auto.
  Qed.
  Lemma edge_side e i j : lv g e = true -> fc g e = Some f -> i < n -> j < n -> og g e = at_ i -> og g (tw g e) = at_ j -> j = nxt i.
  Proof.
    intros L F I J O T. destruct (face_sides Wm LF BV) as (es & PE & _ & _ & SE). rewrite (poly_edges_nth _ 0) in PE.
    assert (X : In (og g e, og g (tw g e)) (arrows g es)) by (apply in_map_iff; exists e; split; auto; apply SE; split; auto; exists f; auto).
    rewrite <- PE in X. apply in_map_iff in X as (k & X & K). pose proof (f_equal fst X) as X1. pose proof (f_equal snd X) as X2. cbn [fst snd] in X1, X2. apply in_seq in K. rewrite len_l in *.
    rewrite O in X1. rewrite T in X2. apply at_inj in X1; auto; [|lia]. apply at_inj in X2; auto; [|apply Nat.mod_upper_bound; lia]. subst k. symmetry. exact X2.
  Qed.
  Lemma touches_eq i j k : i < n -> j < n ->
    touches_at c m f (at_ i) (at_ j) k = if j =? nxt i then Ok (Some true) else if i =? nxt j then Ok (Some false) else k.
  Proof.
    intros I J. destruct (wf_abs Wm) as [R W]. assert (LV : lvv g (at_ i) = true) by (exact (proj1 (Forall_forall _ _) (boundary_live Wm BV) _ (at_in I))).
    destruct (shared_edge_spec c (at_ j) Wm LV) as (o & E & S). unfold touches_at. rewrite E. cbn [bind].
    destruct o as [e|].
    - destruct S as (L & O & T). 
      assert (LT : lv g (tw g e) = true) by (apply W; auto).
      assert (TT : tw g (tw g e) = e) by (apply W; auto).
      assert (FB : fc g (tw g e) = Some f -> i = nxt j) by (intros F; apply edge_side with (tw g e); auto; rewrite TT; auto).
      assert (FF : fc g e = Some f -> j = nxt i) by (intros F; apply edge_side with e; auto).
      rewrite (r_face_id R), (r_boundary R), L. cbn [bind].
      destruct (proj2 AL e L) as [F|F]; [rewrite O; apply at_in; auto|rewrite T; apply at_in; auto| |].
      + rewrite F. cbn [oeqb]. rewrite Nat.eqb_refl. cbn. rewrite (FF F), Nat.eqb_refl. reflexivity.
      + pose proof (FB F) as IJ. destruct (Nat.eqb_spec j (nxt i)) as [JI|JI].
        * exfalso. apply (@next_prev_neq ps N3 j J). rewrite <- IJ. rewrite JI. symmetry. apply prev_next; auto.
        * rewrite <- IJ, Nat.eqb_refl. destruct (fc g e) as [f'|] eqn:FE; [|reflexivity]. cbn [oeqb]. destruct (Nat.eqb_spec f' f) as [-> |]; [|reflexivity]. exfalso. auto.
    - destruct (Nat.eqb_spec j (nxt i)) as [-> |_].
      + destruct (side_edge I) as (e & L & _ & O & T). destruct (S e L O T).
      + destruct (Nat.eqb_spec i (nxt j)) as [IJ|_]; auto. destruct (side_edge J) as (e & L & _ & O & T). exfalso. apply (S (tw g e)); [apply W; auto|rewrite T, IJ; auto|].
        rewrite (wf_twtw W) by auto. auto.
  Qed.

  (** the angle test *)
  Notation th v x := (turn_to eps (spot ps v) (spot ps x) (spot ps (prev ps v))).
  Lemma at_us i : i < n -> nth_error us i = Some (spot ps i, at_ i).
  Proof.
    intros I. rewrite map_length in I. destruct (nth_error us i) as [[p v]|] eqn:E; [|apply nth_error_None in E; lia].
    unfold spot. rewrite (nth_indep _ _ (fst (p, v))) by (rewrite map_length; auto). rewrite (nth_indep l _ (snd (p, v))) by (rewrite map_length; auto). rewrite !map_nth.
    rewrite (nth_error_nth _ _ (p, v) E). reflexivity.
  Qed.
  Lemma inside_eq v w : v < n -> w < n -> is_edge_inside eps us v w = Ok (if Rle_dec (th v w) (th v (nxt v)) then true else false).
  Proof.
    intros V U. unfold is_edge_inside. replace (length us) with n by apply map_length.
    rewrite (at_us (prev_lt N3 v)) || (change ((v + n - 1) mod n) with (prev ps v); rewrite (at_us (@prev_lt ps N3 v))). cbn [unwrap bind].
    change ((v + 1) mod n) with (nxt v). rewrite (at_us (@next_lt ps N3 v)), (at_us V), (at_us U). reflexivity.
  Qed.
  Lemma in_K t : In t D -> (In t (filter keep D) <-> keep t = true).
  Proof. intros I. rewrite filter_In. tauto. Qed.
  Lemma test_ok t v x y : In t D -> seen t v x y -> x <> nxt v -> v <> nxt x -> is_edge_inside eps us v x = Ok (keep t).
  Proof.
    intros I S A B. destruct (seen_lt CT I S) as (V & X & Y). rewrite inside_eq by auto. f_equal.
    pose proof (test_first CT KEEP E0 FAR N3 I S A B) as E. rewrite (in_K I) in E. destruct (Rle_dec (th v x) (th v (nxt v))) as [L|L]; [symmetry; apply E; auto|].
    destruct (keep t); auto. destruct L. apply E; auto.
  Qed.
  Lemma test_back t v x y : In t D -> seen t v x y -> y <> nxt v -> v <> nxt y -> is_edge_inside eps us v y = Ok (keep t).
  Proof.
    intros I S A B. destruct (seen_lt CT I S) as (V & X & Y). rewrite inside_eq by auto. f_equal.
    pose proof (test_second CT KEEP E0 FAR N3 I S A B) as E. rewrite (in_K I) in E. destruct (Rle_dec (th v y) (th v (nxt v))) as [L|L]; [symmetry; apply E; auto|].
    destruct (keep t); auto. destruct L. apply E; auto.
  Qed.
  Lemma choose_ok t : In t D -> choose c eps m f us t = Ok (if keep t then Some (lift3 l t) else None).
  Proof.
    intros I. destruct t as [[p0 p1] p2]. destruct (ct_index CT I) as (A & B & C). unfold choose. rewrite (at_us A), (at_us B), (at_us C). cbn [unwrap bind snd].
    unfold triangle_touches_boundary. rewrite !touches_eq by auto. cbn [lift3].
    assert (KE : forall v, v < n -> In (v, nxt v) (tri_edges (p0, p1, p2)) -> keep (p0, p1, p2) = true) by (intros v V E; apply (in_K I); eapply side_keeps; eauto).
    assert (DR : forall v, v < n -> In (nxt v, v) (tri_edges (p0, p1, p2)) -> keep (p0, p1, p2) = false).
    { intros v V E. destruct (keep (p0, p1, p2)) eqn:Q; auto. exfalso. eapply (@side_drops ps D keep CT KEEP N3 (p0, p1, p2) v I V); eauto. apply (in_K I); auto. }
    destruct (Nat.eqb_spec p1 (nxt p0)) as [E|N1]; [rewrite (KE p0) by (auto; rewrite <- E; cbn; auto); reflexivity|].
    destruct (Nat.eqb_spec p0 (nxt p1)) as [E|N2]; [rewrite (DR p1) by (auto; rewrite <- E; cbn; auto); reflexivity|].
    destruct (Nat.eqb_spec p2 (nxt p1)) as [E|N4]; [rewrite (KE p1) by (auto; rewrite <- E; cbn; auto); reflexivity|].
    destruct (Nat.eqb_spec p1 (nxt p2)) as [E|N5]; [rewrite (DR p2) by (auto; rewrite <- E; cbn; auto); reflexivity|].
    destruct (Nat.eqb_spec p0 (nxt p2)) as [E|N6]; [rewrite (KE p2) by (auto; rewrite <- E; cbn; auto); reflexivity|].
    destruct (Nat.eqb_spec p2 (nxt p0)) as [E|N7]; [rewrite (DR p0) by (auto; rewrite <- E; cbn; auto); reflexivity|].
    cbn [bind]. assert (S0 : seen (p0, p1, p2) p0 p1 p2) by (left; auto). pose proof (seen_turn S0) as S1. pose proof (seen_turn S1) as S2.
    rewrite (test_ok I S0), (test_ok I S1), (test_ok I S2), (test_back I S0), (test_back I S1), (test_back I S2) by auto.
    cbn [bind]. unfold dassert. rewrite Bool.eqb_reflx. destruct (dbg c); reflexivity.
  Qed.
  Lemma fold_choose D' acc : (forall t, In t D' -> In t D) ->
    foldM (fun out t => let* o := choose c eps m f us t in Ok (match o with Some x => out ++ [x] | None => out end)) D' acc = Ok (acc ++ map (lift3 l) (filter keep D')).
  Proof.
    revert acc. induction D' as [|t D' IH]; intros acc H; [cbn; rewrite app_nil_r; reflexivity|].
    cbn [foldM]. rewrite (choose_ok (H t (or_introl eq_refl))). cbn [bind filter]. rewrite IH by (intros; apply H; right; auto). destruct (keep t); auto. cbn [map]. rewrite <- app_assoc. reflexivity.
  Qed.
End CdtMesh.

Section Top.
  Context {VP EP FP : Type}.
  Implicit Types (m : mesh VP EP FP).
  Lemma delaunay_ok m c f us eps cdt before after D : wf m -> lvf (abs m) f = true -> boundary_vertices (abs m) f (map snd us) -> alone (abs m) f (map snd us) ->
    3 <= length us -> (0 < eps)%R -> spread eps (map fst us) -> cdt (map fst us) = Ok D -> constrained (map fst us) D ->
    exists keep, let T := map (lift3 (map snd us)) (filter keep D) in triangulates (map snd us) T /\
      delaunay_triangulation c eps cdt before after m f us = if negb (dbg c) || (before f && after T) then Ok T else Panic.
  Proof.
    intros Wm LF BV AL N E0 FAR CD CT. destruct (ct_inside CT) as (keep & KEEP). exists keep. cbv zeta. split.
    - apply lift_triangulates. rewrite !map_length in *. auto.
    - unfold delaunay_triangulation. destruct (dbg c) eqn:DB, (before f); cbn [negb orb andb assert]; try reflexivity; (match goal with |- context [cdt ?x] => replace (cdt x) with (Ok D) by (symmetry; exact CD) end); cbn [bind].
      all: rewrite (@fold_choose _ _ _ m c f us eps D keep Wm LF BV AL CT KEEP E0 FAR) by (auto; rewrite map_length; auto). cbn [bind app assert].
      all: rewrite ?DB; cbn [negb orb assert]; reflexivity.
  Qed.

  (** the whole mesh *)
  Definition vec_dec (p q : rvec2 * nat) : {p = q} + {p <> q}.
  Proof. decide equality; [apply Nat.eq_dec|]. decide equality; apply Req_EM_T. Defined.
  Section Whole.
    Variables (S W : Type) (pos2 : nat -> option (nat -> rvec2)) (planar convex_face simple : nat -> bool) (ds : rvec2 -> rvec2 -> S) (le : S -> S -> bool)
      (cv : rvec2 -> rvec2 -> rvec2 -> bool) (inside3 : rvec2 -> rvec2 -> rvec2 -> rvec2 -> bool) (collinear : rvec2 -> rvec2 -> rvec2 -> bool) (rnd : nat -> nat)
      (addW : W -> W -> W) (ltW : W -> W -> bool) (zeroW : W) (distance : rvec2 -> rvec2 -> W) (valid_diagonal : nat -> nat -> nat -> bool)
      (sweep : mono -> list (rvec2 * nat) -> res (list tri3)).
    Notation run del := (triangulate pos2 planar convex_face simple ds le cv inside3 collinear rnd addW ltW zeroW distance valid_diagonal sweep del).
    Lemma run_ext m del del' dbg alg blank : wf m ->
      (forall f l p, lvf (abs m) f = true -> boundary_vertices (abs m) f l -> pos2 f = Some p -> 3 <= length l -> del f (map (fun v => (p v, v)) l) = del' f (map (fun v => (p v, v)) l)) ->
      run del dbg alg blank m = run del' dbg alg blank m.
    Proof.
      intros Wm H. unfold triangulate. f_equal. unfold triangulate_ids.
      assert (G : forall fs acc, (forall f, In f fs -> lvf (abs m) f = true) ->
        foldM (fun out f => let* t := face_triangles pos2 planar convex_face simple ds le cv inside3 collinear rnd addW ltW zeroW distance valid_diagonal sweep del dbg alg m f in Ok (out ++ t)) fs acc =
        foldM (fun out f => let* t := face_triangles pos2 planar convex_face simple ds le cv inside3 collinear rnd addW ltW zeroW distance valid_diagonal sweep del' dbg alg m f in Ok (out ++ t)) fs acc).
      { induction fs as [|f fs IH]; intros acc L; [reflexivity|]. cbn [foldM].
        assert (E : face_triangles pos2 planar convex_face simple ds le cv inside3 collinear rnd addW ltW zeroW distance valid_diagonal sweep del dbg alg m f =
                    face_triangles pos2 planar convex_face simple ds le cv inside3 collinear rnd addW ltW zeroW distance valid_diagonal sweep del' dbg alg m f).
        { specialize (L f (or_introl eq_refl)). destruct (boundary_exists Wm L) as (l & B). unfold face_triangles. rewrite (boundary_face_vertices Wm L B).
          destruct B as (es & LP & EL). destruct (MeshProofs2.face_num_edges_ok Wm L LP) as [-> _]. cbn [bind].
          assert (LN : length (fe (abs m) f :: es) = length l) by (rewrite EL, map_length; reflexivity). rewrite LN. unfold triangulate_face. destruct (Nat.leb_spec 3 (length l)) as [L3|]; [|reflexivity]. cbn [assert].
          destruct (try_min_weight_small pos2 ds le cv f (length l) l) as [[t|]| |]; try reflexivity. cbn [bind].
          assert (X : (let* us := vec2s pos2 f l in del f us) = (let* us := vec2s pos2 f l in del' f us)).
          { unfold vec2s. destruct (pos2 f) as [p|] eqn:P; [|reflexivity]. cbn [unwrap bind]. apply H; auto. exists es. split; auto. }
          destruct alg; auto. }
        rewrite E. destruct (face_triangles pos2 planar convex_face simple ds le cv inside3 collinear rnd addW ltW zeroW distance valid_diagonal sweep del' dbg alg m f); try reflexivity.
        cbn [bind]. apply IH. intros k K. apply L. right. auto. }
      rewrite G; auto. intros f. apply face_ids_live. auto.
    Qed.
    (** every face can be handed to the Delaunay triangulation *)
    Definition prepared m eps (cdt : nat -> list rvec2 -> res (list tri3)) : Prop := forall f l p, lvf (abs m) f = true -> boundary_vertices (abs m) f l -> pos2 f = Some p -> 3 <= length l ->
      alone (abs m) f l /\ spread eps (map p l) /\ forall D, cdt f (map p l) = Ok D -> constrained (map p l) D.
    Lemma delaunay_sound m c eps cdt before after : wf m -> (0 < eps)%R -> prepared m eps cdt ->
      exists del, (forall f, sound (del f)) /\ forall dbg' alg blank, run (fun f us => delaunay_triangulation c eps (cdt f) (before f) (after f) m f us) dbg' alg blank m = run del dbg' alg blank m.
    Proof.
      intros Wm E0 PR.
      exists (fun f us => match pos2 f, face_vertices m f with Some p, Ok l => if lvf (abs m) f && (3 <=? length l) then if list_eq_dec vec_dec us (map (fun v => (p v, v)) l) then delaunay_triangulation c eps (cdt f) (before f) (after f) m f us else Panic else Panic | _, _ => Panic end).
      split.
      - intros f us T E. destruct (pos2 f) as [p|] eqn:P; [|discriminate]. destruct (face_vertices m f) as [l| |] eqn:FV; try discriminate. destruct (lvf (abs m) f) eqn:LF; [|discriminate]. cbn [andb] in E. destruct (Nat.leb_spec 3 (length l)) as [L3|]; [|discriminate].
        destruct (list_eq_dec vec_dec us (map (fun v => (p v, v)) l)) as [-> |]; [|discriminate].
        destruct (boundary_exists Wm LF) as (l' & B). pose proof (boundary_face_vertices Wm LF B) as X. rewrite FV in X. injection X as <-.
        assert (MF : map fst (map (fun v => (p v, v)) l) = map p l) by (rewrite map_map; reflexivity). assert (MS : map snd (map (fun v => (p v, v)) l) = l) by (rewrite map_map; cbn; apply map_id).
        destruct (PR f l p LF B P L3) as (AL & SP & CT). destruct (cdt f (map p l)) as [D| |] eqn:CD; [| |]; try (unfold delaunay_triangulation in E; rewrite MF, CD in E; cbn [bind] in E; destruct (negb (dbg c) || before f f); discriminate).
        destruct (@delaunay_ok m c f (map (fun v => (p v, v)) l) eps (cdt f) (before f) (after f) D Wm LF (eq_ind_r (fun x => boundary_vertices (abs m) f x) B MS) (eq_ind_r (fun x => alone (abs m) f x) AL MS)
          (eq_ind_r (fun x => 3 <= x) L3 (map_length _ _)) E0 (eq_ind_r (fun x => spread eps x) SP MF) (eq_trans (f_equal (cdt f) MF) CD) (eq_ind_r (fun x => constrained x D) (CT D eq_refl) MF)) as (keep & TR & EQ).
        cbv zeta in EQ. rewrite EQ in E. match type of E with (if ?b then _ else _) = _ => destruct b; [|discriminate] end. injection E as <-. exact TR.
      - intros dbg' alg blank. apply run_ext; auto. intros f l p LF B P L3. rewrite P, (boundary_face_vertices Wm LF B), LF. destruct (Nat.leb_spec 3 (length l)); [|lia]. cbn [andb].
        destruct (list_eq_dec vec_dec (map (fun v => (p v, v)) l) (map (fun v => (p v, v)) l)); [reflexivity|congruence].
    Qed.
  End Whole.
End Top.
