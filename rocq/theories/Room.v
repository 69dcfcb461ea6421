(** When the primitive mutations succeed. *)
From Coq Require Import List Arith Lia Bool.
From Verif Require Import Base DVec DVecFacts Mesh Spec Rep.
Import ListNotations.
Set Implicit Arguments.
Unset Strict Implicit.

(** The arena has at most [cap] slots, and at least [n] more ids can be handed out. *)
Definition spare {A} (cap : nat) (d : dvec A) (n : nat) : Prop :=
  length (slots d) <= cap /\ n <= length (free d) + (cap - length (slots d)).

Lemma spare_len {A} cap (d : dvec A) n : dv_ok d [] -> length (slots d) <= cap ->
  (spare cap d n <-> length (d_iter d) + n <= cap).
Proof.
  intros OK F. pose proof (len_iter OK) as L. unfold d_len in L. simpl in L.
  assert (length (free d) <= length (slots d)).
  { pose proof (ok_nodup OK) as ND. rewrite app_nil_r in ND.
    rewrite <- (seq_length (length (slots d)) 0). apply NoDup_incl_length; auto.
    intros x Hx. apply in_seq. assert (I : In x (free d ++ [])) by (rewrite app_nil_r; auto).
    apply (ok_dead OK) in I. assert (x < length (slots d)) by (apply nth_error_Some; congruence). lia. }
  unfold spare. lia.
Qed.

Lemma spare_le {A} cap (d : dvec A) n k : spare cap d n -> k <= n -> spare cap d k.
Proof. unfold spare. lia. Qed.

Lemma alloc_total {A} cap (d : dvec A) n : spare cap d (S n) ->
  exists d' i, d_alloc cap d = Ok (d', i) /\ spare cap d' n.
Proof.
  unfold spare, d_alloc. destruct (free d) as [|i fr]; simpl; intros [F S].
  - destruct (Nat.leb_spec (length (slots d)) cap); [|lia]. simpl.
    do 2 eexists. split; eauto. simpl. rewrite app_length. simpl. lia.
  - do 2 eexists. split; eauto. simpl. lia.
Qed.

Lemma set_total {A} cap (d : dvec A) p1 i p2 n v : dv_ok d (p1 ++ i :: p2) -> spare cap d n ->
  exists d', d_set cap d i v = Ok d' /\ spare cap d' n.
Proof.
  intros OK [F S]. assert (I : In i (free d ++ p1 ++ i :: p2)) by (rewrite !in_app_iff; simpl; auto).
  apply (ok_dead OK) in I. unfold d_set. rewrite I.
  assert (i < length (slots d)) by (apply nth_error_Some; congruence).
  destruct (Nat.eqb_spec i cap); [lia|]. simpl. eexists. split; eauto.
  unfold spare. simpl. rewrite upd_length. lia.
Qed.

Lemma push_total {A} cap (d : dvec A) n v p : dv_ok d p -> spare cap d (S n) ->
  exists d' i, d_push cap d v = Ok (d', i) /\ spare cap d' n.
Proof.
  intros OK [F S]. unfold d_push, spare. destruct (free d) as [|i fr] eqn:E; simpl in *.
  - destruct (Nat.leb_spec (length (slots d)) cap); [|lia].
    destruct (Nat.eqb_spec (length (slots d)) cap); [lia|]. simpl.
    do 2 eexists. split; eauto. simpl. rewrite app_length. simpl. lia.
  - assert (I : In i (free d ++ p)) by (rewrite E; simpl; auto). apply (ok_dead OK) in I.
    assert (i < length (slots d)) by (apply nth_error_Some; congruence).
    destruct (Nat.eqb_spec i cap); [lia|]. destruct (Nat.ltb_spec i (length (slots d))); [|lia]. simpl.
    do 2 eexists. split; eauto. simpl. rewrite upd_length. lia.
Qed.

Section Room.
  Context {VP EP FP : Type}.
  Notation mesh := (mesh VP EP FP).
  Notation graph := (graph VP EP FP).
  Implicit Types (g : graph) (m : mesh) (c : cfg).

  (** Room for [a] more half-edges, [b] more vertices and [d] more faces. *)
  Definition room c m (a b d : nat) : Prop :=
    spare (capE c) (edges m) a /\ spare (capV c) (verts m) b /\ spare (capF c) (faces m) d.

  Lemma room_le c m a b d a' b' d' : room c m a b d -> a' <= a -> b' <= b -> d' <= d ->
    room c m a' b' d'.
  Proof. intros (A & B & D) ? ? ?. repeat split; eapply spare_le; eauto. Qed.

  Lemma live_lt_cap c m qe qv qf g a b d e : rep m qe qv qf g -> room c m a b d -> lv g e = true ->
    e <> capE c.
  Proof. intros R ((F & _) & _) L. pose proof (r_bound R _ L). lia. Qed.

  Lemma f_upd_edge c m qe qv qf g e f a b d : rep m qe qv qf g -> lv g e = true -> room c m a b d ->
    exists m', upd_edge m e f = Ok m' /\ room c m' a b d.
  Proof.
    intros R L (A & B & D). unfold upd_edge. pose proof (r_e R e) as Q.
    destruct (look (edges m) e) eqn:E; [|congruence].
    destruct (update_total _ _ f E) as [d' H]. rewrite H. simpl. eexists. split; eauto.
    destruct (update_ok _ _ (rE R) H) as (_ & L1 & L2 & _). unfold room, spare in *. simpl.
    rewrite L1, L2. auto.
  Qed.

  Lemma f_upd_vertex c m qe qv qf g e f a b d : rep m qe qv qf g -> lvv g e = true -> room c m a b d ->
    exists m', upd_vertex m e f = Ok m' /\ room c m' a b d.
  Proof.
    intros R L (A & B & D). unfold upd_vertex. pose proof (r_v R e) as Q.
    destruct (look (verts m) e) eqn:E; [|congruence].
    destruct (update_total _ _ f E) as [d' H]. rewrite H. simpl. eexists. split; eauto.
    destruct (update_ok _ _ (rV R) H) as (_ & L1 & L2 & _). unfold room, spare in *. simpl.
    rewrite L1, L2. auto.
  Qed.

  Lemma f_upd_face c m qe qv qf g e f a b d : rep m qe qv qf g -> lvf g e = true -> room c m a b d ->
    exists m', upd_face m e f = Ok m' /\ room c m' a b d.
  Proof.
    intros R L (A & B & D). unfold upd_face. pose proof (r_f R e) as Q.
    destruct (look (faces m) e) eqn:E; [|congruence].
    destruct (update_total _ _ f E) as [d' H]. rewrite H. simpl. eexists. split; eauto.
    destruct (update_ok _ _ (rF R) H) as (_ & L1 & L2 & _). unfold room, spare in *. simpl.
    rewrite L1, L2. auto.
  Qed.

  Lemma f_set_next c m qe qv qf g e n a b d : rep m qe qv qf g -> lv g e = true -> room c m a b d ->
    exists m', set_next m e n = Ok m' /\ rep m' qe qv qf (gw_next e n g) /\ room c m' a b d.
  Proof.
    intros R L RM. destruct (f_upd_edge (w_next n) R L RM) as (m' & E & RM').
    exists m'. split; auto. split; auto. eapply w_set_next; eauto.
  Qed.
  Lemma f_set_prev c m qe qv qf g e n a b d : rep m qe qv qf g -> lv g e = true -> room c m a b d ->
    exists m', set_prev m e n = Ok m' /\ rep m' qe qv qf (gw_prev e n g) /\ room c m' a b d.
  Proof.
    intros R L RM. destruct (f_upd_edge (w_prev n) R L RM) as (m' & E & RM').
    exists m'. split; auto. split; auto. eapply w_set_prev; eauto.
  Qed.
  Lemma f_set_twin c m qe qv qf g e n a b d : rep m qe qv qf g -> lv g e = true -> room c m a b d ->
    exists m', set_twin m e n = Ok m' /\ rep m' qe qv qf (gw_twin e n g) /\ room c m' a b d.
  Proof.
    intros R L RM. destruct (f_upd_edge (w_twin n) R L RM) as (m' & E & RM').
    exists m'. split; auto. split; auto. eapply w_set_twin; eauto.
  Qed.
  Lemma f_set_origin c m qe qv qf g e n a b d : rep m qe qv qf g -> lv g e = true -> room c m a b d ->
    exists m', set_origin m e n = Ok m' /\ rep m' qe qv qf (gw_origin e n g) /\ room c m' a b d.
  Proof.
    intros R L RM. destruct (f_upd_edge (w_origin n) R L RM) as (m' & E & RM').
    exists m'. split; auto. split; auto. eapply w_set_origin; eauto.
  Qed.
  Lemma f_set_vedge c m qe qv qf g v n a b d : rep m qe qv qf g -> lvv g v = true -> room c m a b d ->
    exists m', set_vedge m v n = Ok m' /\ rep m' qe qv qf (gw_vedge v n g) /\ room c m' a b d.
  Proof.
    intros R L RM. destruct (f_upd_vertex (fun x => mkV n (v_pay x)) R L RM) as (m' & E & RM').
    exists m'. split; auto. split; auto. eapply w_set_vedge; eauto.
  Qed.
  Lemma f_set_fedge c m qe qv qf g v n a b d : rep m qe qv qf g -> lvf g v = true -> room c m a b d ->
    exists m', set_fedge m v n = Ok m' /\ rep m' qe qv qf (gw_fedge v n g) /\ room c m' a b d.
  Proof.
    intros R L RM. destruct (f_upd_face (fun x => mkF n (f_curved x) (f_pay x)) R L RM) as (m' & E & RM').
    exists m'. split; auto. split; auto. eapply w_set_fedge; eauto.
  Qed.

  Lemma f_set_face c m qe qv qf g e f a b d : rep m qe qv qf g -> lv g e = true ->
    (dbg c = true -> fc g e = None) -> room c m a b d ->
    exists m', set_face c m e f = Ok m' /\ rep m' qe qv qf (gw_face e f g) /\ room c m' a b d.
  Proof.
    intros R L FN RM. destruct (f_upd_edge (w_face f) R L RM) as (m' & E & RM').
    exists m'. assert (H : set_face c m e f = Ok m').
    { unfold set_face. destruct (r_edge_live R _ L) as (x & -> & _ & _ & _ & _ & F & _).
      simpl. unfold dassert. destruct (dbg c); auto. rewrite <- F, FN by auto. simpl. auto. }
    split; auto. split; auto. eapply w_set_face; eauto.
  Qed.

  Lemma f_delete_face c m qe qv qf g e a b d : rep m qe qv qf g -> lv g e = true ->
    (dbg c = true -> fc g e <> None) -> room c m a b d ->
    exists m', delete_face c m e = Ok m' /\ rep m' qe qv qf (gw_face e None g) /\ room c m' a b d.
  Proof.
    intros R L FN RM. destruct (f_upd_edge (w_face None) R L RM) as (m' & E & RM').
    exists m'. assert (H : delete_face c m e = Ok m').
    { unfold delete_face. destruct (r_edge_live R _ L) as (x & -> & _ & _ & _ & _ & F & _).
      simpl. unfold dassert. destruct (dbg c); auto. specialize (FN eq_refl). rewrite F in FN.
      destruct (e_face x); [|congruence]. simpl. auto. }
    split; auto. split; auto. eapply w_delete_face; eauto.
  Qed.

  Lemma f_alloc_vertex c m qe qv qf g a b d : rep m qe qv qf g -> room c m a (S b) d ->
    exists m' v, alloc_vertex c m = Ok (m', v) /\ lvv g v = false /\ ~ In v qv /\
      rep m' qe (v :: qv) qf g /\ room c m' a b d.
  Proof.
    intros R (A & B & D). destruct (alloc_total B) as (dv & v & E & S).
    assert (H : alloc_vertex c m = Ok (mkM (edges m) dv (faces m), v)) by (unfold alloc_vertex; rewrite E; reflexivity).
    do 2 eexists. split; [exact H|]. destruct (w_alloc_vertex R H) as (? & ? & ?). split; auto. split; auto. split; auto. split; [apply A|split; [apply S|apply D]].
  Qed.

  Lemma f_alloc_edge c m qe qv qf g a b d : rep m qe qv qf g -> room c m (S a) b d ->
    exists m' v, alloc_edge c m = Ok (m', v) /\ lv g v = false /\ ~ In v qe /\
      rep m' (v :: qe) qv qf g /\ room c m' a b d.
  Proof.
    intros R (A & B & D). destruct (alloc_total A) as (dv & v & E & S).
    assert (H : alloc_edge c m = Ok (mkM dv (verts m) (faces m), v)) by (unfold alloc_edge; rewrite E; reflexivity).
    do 2 eexists. split; [exact H|]. destruct (w_alloc_edge R H) as (? & ? & ?). split; auto. split; auto. split; auto. split; [apply S|split; [apply B|apply D]].
  Qed.

  Lemma f_set_vertex c m qe q1 v q2 qf g x a b d : rep m qe (q1 ++ v :: q2) qf g -> room c m a b d ->
    exists m', set_vertex c m v x = Ok m' /\ rep m' qe (q1 ++ q2) qf (gw_vertex v (v_edge x) (v_pay x) g) /\
      room c m' a b d.
  Proof.
    intros R (A & B & D). destruct (set_total x (rV R) B) as (d' & E & S).
    assert (H : set_vertex c m v x = Ok (mkM (edges m) d' (faces m))) by (unfold set_vertex; rewrite E; reflexivity).
    eexists. split; [exact H|]. split; [eapply w_set_vertex; eauto|]. repeat split; try apply A; try apply S; try apply D.
  Qed.

  Lemma f_insert_halfedge c m q1 e q2 qv qf g o f p t n y a b d :
    rep m (q1 ++ e :: q2) qv qf g -> room c m a b d ->
    let n' := match n with Some n => n | None => t end in
    let p' := match p with Some p => p | None => t end in
    n' <> capE c -> p' <> capE c -> t <> capE c -> n' <> e -> p' <> e ->
    exists m', insert_halfedge c m e o f p t n y = Ok m' /\
      rep m' (q1 ++ q2) qv qf (gw_edge e n' t p' o f y g) /\ room c m' a b d.
  Proof.
    intros R RM n' p' N1 N2 N3 N4 N5. pose proof RM as (A & B & D).
    destruct (set_total (mkE n' t p' o f y) (rE R) A) as (d' & E & S).
    assert (H : insert_halfedge c m e o f p t n y = Ok (mkM d' (verts m) (faces m))).
    { unfold insert_halfedge. fold n' p'. cbv zeta.
      apply Nat.eqb_neq in N1, N2, N3, N4, N5. rewrite N1, N2, N3. simpl.
      pose proof E as E'. unfold d_set in E'. destruct (nth_error _ _) as [[?|]|]; try discriminate.
      rewrite N4, N5. simpl. rewrite E. reflexivity. }
    eexists. split; [exact H|]. split; [eapply w_insert_halfedge; eauto|].
    repeat split; try apply S; try apply B; try apply D.
  Qed.

  Lemma f_insert_pair c m qv qf g n1 p1 o1 f1 y1 n2 p2 o2 f2 y2 a b d :
    rep m [] qv qf g -> room c m (2 + a) b d ->
    (forall x, In (Some x) [n1; p1; n2; p2] -> lv g x = true) ->
    exists m' e1 e2, insert_pair c m n1 p1 o1 f1 y1 n2 p2 o2 f2 y2 = Ok (m', e1, e2) /\ room c m' a b d.
  Proof.
    intros R RM H. unfold insert_pair.
    destruct (f_alloc_edge R RM) as (m1 & e1 & -> & L1 & _ & R1 & RM1). simpl.
    destruct (f_alloc_edge R1 RM1) as (m2 & e2 & -> & L2 & NI & R2 & RM2). simpl.
    assert (B1 : forall x, In (Some x) [n1; p1; n2; p2] -> x <> e1 /\ x <> e2 /\ x <> capE c).
    { intros x Hx. specialize (H x Hx). repeat split; try congruence. eapply live_lt_cap; eauto. }
    assert (D : e1 <> e2) by (intros ->; apply NI; left; auto).
    assert (K : forall e, In e [e2; e1] -> e <> capE c).
    { intros e He. assert (I : In e (free (edges m2) ++ [e2; e1])) by (apply in_app_iff; auto).
      apply (ok_dead (rE R2)) in I. destruct RM2 as ((F & _) & _).
      assert (e < length (slots (edges m2))) by (apply nth_error_Some; congruence). lia. }
    pose proof (K e1 ltac:(simpl; auto)) as K1. pose proof (K e2 ltac:(simpl; auto)) as K2.
    assert (S1 : exists m3, insert_halfedge c m2 e1 o1 f1 p1 e2 n1 y1 = Ok m3 /\
      rep m3 [e2] qv qf (gw_edge e1 (match n1 with Some n => n | None => e2 end) e2
         (match p1 with Some p => p | None => e2 end) o1 f1 y1 g) /\ room c m3 a b d).
    { apply (@f_insert_halfedge c m2 [e2] e1 [] qv qf g o1 f1 p1 e2 n1 y1); auto;
        destruct n1, p1; auto; try (apply B1; simpl; auto; fail); auto. }
    destruct S1 as (m3 & -> & R3 & RM3). simpl.
    assert (S2 : exists m4, insert_halfedge c m3 e2 o2 f2 p2 e1 n2 y2 = Ok m4 /\
      rep m4 [] qv qf (gw_edge e2 (match n2 with Some n => n | None => e1 end) e1
         (match p2 with Some p => p | None => e1 end) o2 f2 y2 (gw_edge e1 (match n1 with Some n => n | None => e2 end) e2
         (match p1 with Some p => p | None => e2 end) o1 f1 y1 g)) /\ room c m4 a b d).
    { apply (@f_insert_halfedge c m3 [] e2 [] qv qf _ o2 f2 p2 e1 n2 y2); auto;
        destruct n2, p2; auto; try (apply B1; simpl; auto; fail); auto. }
    destruct S2 as (m4 & -> & R4 & RM4). simpl. eauto.
  Qed.

  Lemma f_push_face c m qe qv qf g e cu y a b d : rep m qe qv qf g -> e <> capE c ->
    room c m a b (S d) ->
    exists m' f, push_face c m e cu y = Ok (m', f) /\ room c m' a b d.
  Proof.
    intros R NE (A & B & D). unfold push_face. apply Nat.eqb_neq in NE. rewrite NE. simpl.
    destruct (push_total (mkF e cu y) (rF R) D) as (d' & f & -> & S). simpl.
    do 2 eexists. split; eauto. repeat split; try apply A; try apply B; try apply S.
  Qed.
End Room.
