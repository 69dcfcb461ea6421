(** The building blocks of subdivision as graph transformations; the graphs need not be consistent. *)
From Coq Require Import List Arith Lia Bool.
From Verif Require Import Base DVec DVecFacts Mesh Spec Rep Splice Cycle Traverse Room Ops Ops2 Subdivision.
Import ListNotations.
Set Implicit Arguments.
Unset Strict Implicit.

(** [if _ =? _] decided by the disequalities in context *)
Ltac ev1 := match goal with
  | |- context [?a =? ?a] => rewrite (Nat.eqb_refl a)
  | H : ?a <> ?b |- context [?a =? ?b] => rewrite (proj2 (Nat.eqb_neq a b) H)
  | H : ?b <> ?a |- context [?a =? ?b] => rewrite (proj2 (Nat.eqb_neq a b) (not_eq_sym H))
  end.
Ltac ev := repeat (ev1; cbv beta iota).

Section Step.
  Context {VP EP FP : Type}.
  Notation mesh := (mesh VP EP FP).
  Notation graph := (graph VP EP FP).
  Implicit Types (g : graph) (m : mesh) (c : cfg).

  Lemma edges_face_raw m qe qv qf g e t : rep m qe qv qf g -> is_cycle (nx g) (e :: t) ->
    (forall x, In x (e :: t) -> lv g x = true) -> edges_face m e = Ok (e :: t).
  Proof.
    intros R C L. unfold edges_face. rewrite (r_chk R), (L e) by (left; auto).
    apply walk_collect with (f := nx g); auto.
    - intros y Hy. rewrite (r_next R), (L y Hy). assert (In (nx g y) (e :: t)) as I by (eapply cycle_closed; eauto).
      rewrite (L _ I). reflexivity.
    - unfold fuel. pose proof (live_list_length R (cycle_nodup C) L). lia.
  Qed.

  Lemma close_hole_raw c m g e t y cu a b d :
    rep m [] [] [] g -> is_cycle (nx g) (e :: t) -> room c m a b (S d) ->
    (forall x, In x (e :: t) -> lv g x = true /\ fc g x = None) ->
    exists m' f, close_hole c m e y cu = Ok (m', f) /\ lvf g f = false /\
      rep m' [] [] [] (add_face f e (cu, y) (e :: t) g) /\ room c m' a b d.
  Proof.
    intros R C RM LF. assert (L : lv g e = true) by (apply LF; left; auto).
    unfold close_hole. pose proof (live_lt_cap R RM L) as NE.
    destruct (f_push_face cu y R NE RM) as (m1 & f & E & RM1). rewrite E. cbn [bind].
    destruct (w_push_face R E) as (D & _ & R1). rewrite (r_chk R1). cbn [lv gw_newface]. rewrite L.
    pose proof C as C'. rewrite is_cycle_cons in C'. destruct C' as (ND & CH & LA).
    assert (LL : forall x, In x (e :: t) -> lv g x = true) by (intros; apply LF; auto).
    assert (NI : ~ In e t) by (inversion ND; auto).
    assert (FU : length t < fuel m1).
    { pose proof (live_list_length R1 ND LL) as Q. unfold fuel. simpl in Q. lia. }
    destruct (@f_set_face_loop _ _ _ c m1 [] [] [] _ f e e t (fuel m1) a b d R1) as (m2 & E2 & RM2); auto.
    { intros _ x Hx. cbn [fc gw_newface]. apply LF; auto. }
    rewrite E2. cbn [bind]. do 2 eexists. split; [reflexivity|]. split; auto. split; auto.
    apply (@set_face_loop_ok _ _ _ c m1 [] [] [] _ f e e t (fuel m1) m2 R1); auto.
  Qed.

  Lemma remove_face_raw c m g f t a b d :
    rep m [] [] [] g -> lvf g f = true -> is_cycle (nx g) (fe g f :: t) -> room c m a b d ->
    (forall x, In x (fe g f :: t) -> lv g x = true /\ fc g x <> None) ->
    exists m' y cu, remove_face c m f = Ok (m', y) /\ fp g f = Some (cu, y) /\
      rep m' [] [] [] (del_face f (fe g f :: t) g) /\ room c m' a b (S d).
  Proof.
    intros R L C RM LF. unfold remove_face. destruct (r_face_live R _ L) as (x & -> & FE & FY). cbn [bind]. rewrite <- FE.
    rewrite (edges_face_raw R C) by (intros; apply LF; auto). cbn [bind].
    destruct (@f_foldM_delete _ _ _ c (fe g f :: t) m [] [] [] g a b d) as (m1 & E & RM1); auto.
    { eapply cycle_nodup; eauto. }
    rewrite E. cbn [bind]. pose proof (foldM_delete R E) as R1.
    destruct (d_delete (faces m1) f) as [dd| |] eqn:DD.
    2,3: exfalso; pose proof (r_f R1 f) as Q; unfold d_delete in DD; unfold look in Q;
      destruct (nth_error (slots (faces m1)) f) as [[[? ?]|]|]; try discriminate; cbn in Q; congruence.
    cbn [bind]. exists (mkM (edges m1) (verts m1) dd), (f_pay x), (f_curved x). split; [reflexivity|]. split; [auto|].
    destruct (w_delete_faces R1 DD) as [_ R2]. split; [exact R2|].
    unfold d_delete in DD. destruct (nth_error (slots (faces m1)) f) as [[[? ?]|]|]; try discriminate. injection DD as <-.
    destruct RM1 as (A & B & D). split; [exact A|]. split; [exact B|]. unfold spare in *. cbn [faces slots free length].
    rewrite upd_length. lia.
  Qed.

  (** cutting off one corner of a face that was removed: [x] is the half-edge at the corner, [p] its
      predecessor, [o] the predecessor of [p] and [y] the successor of [x] *)
  Definition corner_graph (x p o y k n1 n2 : nat) (z : FP) (dE : EP) g : graph :=
    mkG (fu (fu (lv g) n1 true) n2 true)
        (fun j => if j =? n1 then p else if j =? n2 then y else if j =? x then n1 else if j =? o then n2 else nx g j)
        (fun j => if j =? n1 then x else if j =? n2 then o else if j =? p then n1 else if j =? y then n2 else pv g j)
        (fun j => if j =? n1 then n2 else if j =? n2 then n1 else tw g j)
        (fun j => if j =? n1 then og g y else if j =? n2 then og g p else og g j)
        (fun j => if j =? n1 then Some k else if j =? n2 then None else if j =? x then Some k else if j =? p then Some k else fc g j)
        (fu (fu (ep g) n1 (Some dE)) n2 (Some dE))
        (lvv g) (ve g) (vp g) (fu (lvf g) k true) (fu (fe g) k x) (fu (fp g) k (Some (false, z))).

  Lemma cut_corner_ok c m g dE z x p o y a b d :
    rep m [] [] [] g -> room c m (2 + a) b (S d) ->
    lv g x = true -> lv g p = true -> lv g o = true -> lv g y = true ->
    pv g x = p -> pv g p = o -> nx g x = y -> nx g o = p -> nx g p = x ->
    x <> p -> x <> o -> o <> p -> y <> p ->
    lvv g (og g y) = true -> lvv g (og g p) = true -> fc g x = None -> fc g p = None ->
    exists m' k n1 n2, cut_corner dE c z m x = Ok m' /\ lvf g k = false /\ lv g n1 = false /\ lv g n2 = false /\ n1 <> n2 /\
      rep m' [] [] [] (corner_graph x p o y k n1 n2 z dE g) /\ room c m' a b d.
  Proof.
    intros R RM Lx Lp Lo Ly Px Pp Nx No Np NE1 NE2 NE3 NE4 V1 V2 F1 F2.
    unfold cut_corner. rewrite (r_prev R), Lx, Px, Lp. cbn [andb bind]. rewrite (r_prev_id R), Lp, Pp. cbn [bind].
    unfold insert_edge_no_check. rewrite !(r_chk R), Lx, Lo, !(r_gtarget R), !(r_next R), Lx, Lo, Nx, No, Ly, Lp, V1, V2.
    cbn [andb bind].
    destruct (@f_insert_pair _ _ _ c m [] [] g (Some p) (Some x) (og g y) None dE
      (Some y) (Some o) (og g p) None dE a b (S d) R RM) as (m1 & n1 & n2 & E1 & RM1).
    { intros j [Hx|[Hx|[Hx|[Hx|[]]]]]; congruence. }
    rewrite E1. cbn [bind]. destruct (w_insert_pair R E1) as (D1 & D2 & N12 & R1).
    destruct (@f_relink _ _ _ c m1 _ x o p y n1 n2 [] [] [] a b (S d) R1 RM1) as (m2 & E2 & RM2);
      try (cbn -[Nat.eqb]; unfold fu; eqcase; fail).
    rewrite E2. cbn [bind]. pose proof (relink_ok R1 E2) as R2.
    assert (H : forall j, lv g j = true -> j <> n1 /\ j <> n2) by (split; congruence).
    destruct (H _ Lx), (H _ Lp), (H _ Lo), (H _ Ly).
    assert (C : is_cycle (nx (gw_next o n2 (gw_next x n1 (gw_prev y n2 (gw_prev p n1
       (gw_edge n2 y n1 o (og g p) None dE (gw_edge n1 p n2 x (og g y) None dE g))))))) [x; n1; p]).
    { rewrite is_cycle_cons. split.
      - repeat constructor; cbn; intuition.
      - cbn -[Nat.eqb]. unfold fu. split; [split; [|split; [|exact I]]|]; ev; auto. }
    destruct (@close_hole_raw c m2 _ x [n1; p] z false a b d R2 C RM2) as (m3 & k & E3 & DK & R3 & RM3).
    { cbn -[Nat.eqb]. unfold fu. intros j [<-|[<-|[<-|[]]]]; ev; auto. }
    rewrite E3. cbn [bind]. exists m3, k, n1, n2. split; [reflexivity|]. split; [exact DK|]. split; auto. split; auto. split; auto.
    split; [|exact RM3]. eapply rep_geq_l; [exact R3|].
    split; intros j; cbn -[Nat.eqb]; unfold fu; intros; auto; unfold mem; cbn -[Nat.eqb];
      repeat match goal with |- context [?u =? ?v] => destruct (Nat.eqb_spec u v); try subst; try congruence end; cbn [orb]; auto; congruence.
  Qed.

  (** splitting a half-edge with a new vertex *)
  Definition split_graph (e n v : nat) (y : VP) (dE : EP) g : graph :=
    mkG (fu (lv g) n true)
        (fun j => if j =? n then nx g e else if j =? e then n else nx g j)
        (fun j => if j =? n then e else if j =? nx g e then n else pv g j)
        (fu (tw g) n (tw g e)) (fu (og g) n v) (fu (fc g) n (fc g e)) (fu (ep g) n (Some dE))
        (fu (lvv g) v true) (fu (ve g) v (Some n)) (fu (vp g) v (Some y)) (lvf g) (fe g) (fp g).

  Lemma subdivide_unsafe_ok c m g e y dE a b d :
    rep m [] [] [] g -> room c m (S a) (S b) d -> lv g e = true -> lv g (nx g e) = true -> lv g (tw g e) = true ->
    exists m' n v, subdivide_unsafe c m e y dE = Ok (m', n) /\ lv g n = false /\ lvv g v = false /\
      rep m' [] [] [] (split_graph e n v y dE g) /\ room c m' a b d.
  Proof.
    intros R RM L LN LT. unfold subdivide_unsafe.
    destruct (r_edge_live R _ L) as (x & -> & NX & PV & TW & OG & FC & PY). cbn [bind].
    rewrite <- NX, <- TW, <- FC.
    destruct (f_alloc_vertex R RM) as (m1 & v & -> & DV & _ & R1 & RM1). cbn [bind].
    destruct (f_alloc_edge R1 RM1) as (m2 & n & -> & DN & _ & R2 & RM2). cbn [bind].
    assert (H : forall j, lv g j = true -> j <> n /\ j <> capE c).
    { intros j Lj. split; [congruence|]. eapply live_lt_cap; eauto. }
    destruct (H _ L), (H _ LN), (H _ LT).
    destruct (@f_insert_halfedge _ _ _ c m2 [] n [] [v] [] g v (fc g e) (Some e) (tw g e) (Some (nx g e)) dE a b d R2 RM2)
      as (m3 & -> & R3 & RM3); auto. cbn [bind app] in *.
    destruct (@f_set_vertex _ _ _ c m3 [] [] v [] [] _ (mkV (Some n) y) a b d R3 RM3) as (m4 & -> & R4 & RM4). cbn [bind app] in *.
    destruct (@f_set_prev _ _ _ c m4 [] [] [] _ (nx g e) n a b d R4) as (m5 & -> & R5 & RM5); auto.
    { cbn -[Nat.eqb]. unfold fu. ev. auto. }
    cbn [bind]. destruct (@f_set_next _ _ _ c m5 [] [] [] _ e n a b d R5) as (m6 & -> & R6 & RM6); auto.
    { cbn -[Nat.eqb]. unfold fu. ev. auto. }
    cbn [bind]. exists m6, n, v. split; [reflexivity|]. split; auto. split; auto. split; [|exact RM6].
    eapply rep_geq_l; [exact R6|].
    split; intros j; cbn -[Nat.eqb]; unfold fu; intros; auto; eqcase.
  Qed.

  (** splitting a half-edge whose twin was split before; [q] is the second half of the twin [t] *)
  Definition fixup_graph (e n t q : nat) (dE : EP) g : graph :=
    mkG (fu (lv g) n true)
        (fun j => if j =? n then nx g e else if j =? e then n else nx g j)
        (fun j => if j =? n then e else if j =? nx g e then n else pv g j)
        (fun j => if j =? n then t else if j =? e then q else if j =? t then n else tw g j)
        (fu (og g) n (og g q)) (fu (fc g) n (fc g e)) (fu (ep g) n (Some dE))
        (lvv g) (ve g) (vp g) (lvf g) (fe g) (fp g).

  Lemma try_fixup_found c m g e q dE a b d :
    rep m [] [] [] g -> room c m (S a) b d -> lv g e = true -> lv g (nx g e) = true -> lv g (tw g e) = true ->
    lv g (nx g (tw g e)) = true -> lv g q = true -> tw g e <> e ->
    fixup_search m e (tw g e) (og g (nx g (tw g e))) (nx g (tw g e)) (fuel m) = Ok (Some q) ->
    exists m' n, try_fixup c m e dE = Ok (m', Some n) /\ lv g n = false /\
      rep m' [] [] [] (fixup_graph e n (tw g e) q dE g) /\ room c m' a b d.
  Proof.
    intros R RM L LN LT LNT LQ NE S. unfold try_fixup.
    rewrite (r_twin R), L, LT. cbn [andb bind].
    destruct (r_edge_live R _ L) as (x & -> & NX & PV & TW & OG & FC & PY). cbn [bind].
    rewrite (r_next R), LT, LNT. cbn [andb bind]. rewrite (r_origin_id R), LNT. cbn [bind]. rewrite S. cbn [bind].
    rewrite <- NX, <- FC.
    destruct (f_alloc_edge R RM) as (m1 & n & -> & DN & _ & R1 & RM1). cbn [bind].
    rewrite (r_origin_id R1), LQ. cbn [bind].
    assert (H : forall j, lv g j = true -> j <> n /\ j <> capE c).
    { intros j Lj. split; [congruence|]. eapply live_lt_cap; eauto. }
    destruct (H _ L), (H _ LN), (H _ LT).
    destruct (@f_insert_halfedge _ _ _ c m1 [] n [] [] [] g (og g q) (fc g e) (Some e) (tw g e) (Some (nx g e)) dE a b d R1 RM1)
      as (m3 & -> & R3 & RM3); auto. cbn [bind app] in *.
    destruct (@f_set_twin _ _ _ c m3 [] [] [] _ e q a b d R3) as (m4 & -> & R4 & RM4); auto.
    { cbn -[Nat.eqb]. unfold fu. ev. auto. }
    cbn [bind]. destruct (@f_set_twin _ _ _ c m4 [] [] [] _ (tw g e) n a b d R4) as (m5 & -> & R5 & RM5); auto.
    { cbn -[Nat.eqb]. unfold fu. ev. auto. }
    cbn [bind]. destruct (@f_set_prev _ _ _ c m5 [] [] [] _ (nx g e) n a b d R5) as (m6 & -> & R6 & RM6); auto.
    { cbn -[Nat.eqb]. unfold fu. ev. auto. }
    cbn [bind]. destruct (@f_set_next _ _ _ c m6 [] [] [] _ e n a b d R6) as (m7 & -> & R7 & RM7); auto.
    { cbn -[Nat.eqb]. unfold fu. ev. auto. }
    cbn [bind]. exists m7, n. split; [reflexivity|]. split; auto. split; [|exact RM7].
    eapply rep_geq_l; [exact R7|].
    split; intros j; cbn -[Nat.eqb]; unfold fu; intros; auto; eqcase.
  Qed.
  Lemma try_fixup_none c m g e dE :
    rep m [] [] [] g -> lv g e = true -> lv g (tw g e) = true -> lv g (nx g (tw g e)) = true ->
    fixup_search m e (tw g e) (og g (nx g (tw g e))) (nx g (tw g e)) (fuel m) = Ok None ->
    try_fixup c m e dE = Ok (m, None).
  Proof.
    intros R L LT LNT S. unfold try_fixup. destruct (r_edge_live R _ L) as (x & -> & _). cbn [bind].
    rewrite (r_twin R), L, LT. cbn [andb bind].
    rewrite (r_next R), LT, LNT. cbn [andb bind]. rewrite (r_origin_id R), LNT. cbn [bind]. rewrite S. reflexivity.
  Qed.
End Step.
