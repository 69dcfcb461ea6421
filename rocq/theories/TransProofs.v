(** Transforming a mesh keeps its connectivity and moves every point of it. *)
From Coq Require Import List Arith Lia Bool Ring Ring_theory Setoid Morphisms.
From Verif Require Import Base DVec DVecFacts Mesh Spec MeshSpec MeshMore MeshFacts TopoSpec BuildSpec BuildStep Rep MeshProofs IsoProofs.
From Verif Require Import Tess Alg AlgSpec TriSpec AlgProofs AffineProofs Transform TransSpec.
Import ListNotations.
Set Implicit Arguments.
Unset Strict Implicit.
Local Arguments abs : simpl never.

Section DMap.
  Context {A : Type} (f : A -> A).
  Lemma nth_map d i : nth_error (slots (d_map f d)) i =
    option_map (option_map (fun p => (fst p, f (snd p)))) (nth_error (slots d) i).
  Proof. apply nth_error_map. Qed.
  Lemma look_map d i : look (d_map f d) i = option_map f (look d i).
  Proof. unfold look. rewrite nth_map. destruct (nth_error _ i) as [[[? ?]|]|]; reflexivity. Qed.
  Lemma has_map d i : d_has (d_map f d) i = d_has d i.
  Proof. rewrite !has_look_b, look_map. destruct (look d i); reflexivity. Qed.
  Lemma ok_map d q : dv_ok d q -> dv_ok (d_map f d) q.
  Proof.
    intros [N DD I]. split; auto.
    - intros i. rewrite nth_map. rewrite <- (DD i). destruct (nth_error _ i) as [[[? ?]|]|]; cbn; split; congruence.
    - intros i k v. rewrite nth_map. destruct (nth_error _ i) as [[[k' v']|]|] eqn:E; cbn; intros H; try discriminate.
      injection H as <- <-. apply (I _ _ _ E).
  Qed.
End DMap.

Section Links.
  Context {VP EP FP VP' EP' FP' : Type}.
  Implicit Types (g : graph VP EP FP) (h : graph VP' EP' FP').
  Lemma reach_ext (f h : nat -> nat) x y : (forall z, h z = f z) -> reach f x y -> reach h x y.
  Proof.
    intros E H. induction H as [|b H IH]; [constructor|]. rewrite <- E. constructor. exact IH.
  Qed.
  Lemma links_WF g h : same_links g h -> WF g -> WF h.
  Proof.
    intros [A B C D E F G H I J] W.
    split; intros; rewrite ?A, ?B, ?C, ?D, ?E, ?F, ?G, ?H, ?I, ?J in *; try (now apply W; auto).
    - destruct (wf_wheel W _ H0) as (e0 & X & Y). exists e0. split; [exact X|].
      eapply reach_ext; [|exact Y]. intros z. unfold wheel. rewrite B, D. reflexivity.
    - destruct (wf_fc W _ H0 H1) as (X & Y). split; [exact X|]. eapply reach_ext; [|exact Y]. exact B.
  Qed.
  Lemma chain_ext (f h : nat -> nat) l : (forall z, h z = f z) -> forall x, chain f x l -> chain h x l.
  Proof. intros E. induction l as [|y l IH]; intros x; cbn; [auto|]. intros [<- K]. split; auto. Qed.
  Lemma links_loop g h l : same_links g h -> loop g l -> loop h l.
  Proof.
    intros S [L C]. split; [intros x I; rewrite (sl_lv S); auto|].
    destruct l as [|x l]; [exact C|]. destruct C as (N & K & E). split; [exact N|].
    split; [eapply chain_ext; [apply (sl_nx S)|exact K]|rewrite (sl_nx S); exact E].
  Qed.
  Lemma links_boundary g h f l : same_links g h -> boundary_vertices g f l -> boundary_vertices h f l.
  Proof.
    intros S (es & L & ->). exists es. rewrite (sl_fe S). split; [apply (links_loop S L)|].
    apply map_ext. intros x. rewrite (sl_og S), (sl_tw S). reflexivity.
  Qed.
End Links.

Section Mesh.
  Context {VP EP FP : Type} (fv : VP -> VP) (fh : EP -> EP) (ff : FP -> FP).
  Implicit Types (m : mesh VP EP FP).
  Notation tr := (m_transform fv fh ff).
  Lemma transform_links m : same_links (abs m) (abs (tr m)).
  Proof.
    split; intros x; unfold abs, m_transform; cbn; rewrite ?has_map, ?look_map; auto;
      try (destruct (look (edges m) x); reflexivity); try (destruct (look (verts m) x); reflexivity);
      destruct (look (faces m) x); reflexivity.
  Qed.
  Lemma transform_pays m : (forall x, ep (abs (tr m)) x = option_map fh (ep (abs m) x)) /\
    (forall v, vp (abs (tr m)) v = option_map fv (vp (abs m) v)) /\
    (forall f, fp (abs (tr m)) f = option_map (fun p => (fst p, ff (snd p))) (fp (abs m) f)).
  Proof.
    repeat split; intros x; unfold abs, m_transform; cbn; rewrite look_map;
      [destruct (look (edges m) x)|destruct (look (verts m) x)|destruct (look (faces m) x)]; reflexivity.
  Qed.
  Theorem transform_wf m : wf m -> wf (tr m).
  Proof.
    intros (A & B & C & W). split; [now apply ok_map|]. split; [now apply ok_map|]. split; [now apply ok_map|].
    apply (links_WF (transform_links m) W).
  Qed.
End Mesh.

Section Ring.
  Variables (R : Type) (zero one : R) (add mul sub : R -> R -> R) (opp : R -> R) (req : R -> R -> Prop).
  Hypothesis Eq : Equivalence req.
  Hypothesis Ext : ring_eq_ext add mul opp req.
  Hypothesis RT : ring_theory zero one add mul sub opp req.
  Add Ring Rt : RT (setoid Eq Ext).
  Instance add_proper : Proper (req ==> req ==> req) add := Radd_ext Ext.
  Instance mul_proper : Proper (req ==> req ==> req) mul := Rmul_ext Ext.
  Instance opp_proper : Proper (req ==> req) opp := Ropp_ext Ext.
  Instance sub_proper : Proper (req ==> req ==> req) sub.
  Proof. intros a b H c d K. rewrite !(Rsub_def RT), H, K. reflexivity. Qed.
  Infix "+" := add. Infix "*" := mul. Infix "-" := sub. Notation "- x" := (opp x).
  Infix "==" := req (at level 70).
  Notation vec := (vec R).
  Notation mvec := (mvec zero add mul).
  Notation apply := (a_apply zero add mul).
  Notation apply_vec := (a_apply_vec zero add mul).
  Notation point := (point_at one add mul sub).
  Notation dot := (dot zero add mul).

  Lemma mvec_lin n a v1 v2 v3 v4 x1 x2 x3 x4 i :
    mvec n a (fun k => v1 k * x1 + v2 k * x2 + v3 k * x3 + v4 k * x4) i ==
    mvec n a v1 i * x1 + mvec n a v2 i * x2 + mvec n a v3 i * x3 + mvec n a v4 i * x4.
  Proof.
    unfold Alg.mvec. rewrite !(rsum_lsum zero add). induction (seq 0 n) as [|k l IH]; cbn [lsum]; [ring|].
    rewrite IH. ring.
  Qed.
  Lemma apply_lin D t v1 v2 v3 v4 x1 x2 x3 x4 (w : vec) i :
    (forall k, w k == v1 k * x1 + v2 k * x2 + v3 k * x3 + v4 k * x4) -> x1 + x2 + x3 + x4 == one ->
    apply D t w i == apply D t v1 i * x1 + apply D t v2 i * x2 + apply D t v3 i * x3 + apply D t v4 i * x4.
  Proof.
    intros E H. unfold Alg.a_apply. rewrite (mvec_ext zero Eq Ext (a_mat t) (w := fun k => v1 k * x1 + v2 k * x2 + v3 k * x3 + v4 k * x4)) by (intros; apply E).
    rewrite mvec_lin. transitivity (mvec D (a_mat t) v1 i * x1 + mvec D (a_mat t) v2 i * x2 + mvec D (a_mat t) v3 i * x3 + mvec D (a_mat t) v4 i * x4 + a_tr t i * (x1 + x2 + x3 + x4)); [rewrite H; ring|ring].
  Qed.

  (** the curve of the images of the control points is the image of the curve *)
  Theorem point_apply D t cv s e x i :
    point (k_transform zero add mul D t cv) (apply D t s) (apply D t e) x i == apply D t (point cv s e x) i.
  Proof.
    destruct cv as [|c|c1 c2]; cbn [k_transform].
    - rewrite (apply_lin D t (v1 := s) (v2 := e) (v3 := s) (v4 := s) (x1 := one - x) (x2 := x) (x3 := zero) (x4 := zero) (w := point (Linear R) s e x)).
      + cbn [Alg.point_at]. unfold Alg.lerp. ring.
      + intros k. cbn [Alg.point_at]. unfold Alg.lerp. ring.
      + ring.
    - rewrite (apply_lin D t (v1 := s) (v2 := c) (v3 := e) (v4 := s) (x1 := (one - x) * (one - x)) (x2 := (one + one) * (one - x) * x) (x3 := x * x) (x4 := zero)
        (w := point (Quadratic c) s e x)).
      + cbn [Alg.point_at]. ring.
      + intros k. cbn [Alg.point_at]. ring.
      + ring.
    - rewrite (apply_lin D t (v1 := s) (v2 := c1) (v3 := c2) (v4 := e) (x1 := (one - x) * (one - x) * (one - x)) (x2 := (one + one + one) * ((one - x) * (one - x)) * x)
        (x3 := (one + one + one) * (one - x) * (x * x)) (x4 := x * x * x) (w := point (Cubic c1 c2) s e x)).
      + cbn [Alg.point_at]. ring.
      + intros k. cbn [Alg.point_at]. ring.
      + ring.
  Qed.

  (** ** Linear parts that keep angles *)
  Lemma dot_lsum n a b : dot n a b == lsum zero add (seq 0 n) (fun k => a k * b k).
  Proof. unfold TransSpec.dot, sum. induction (seq 0 n) as [|k l IH]; cbn; [reflexivity|]. rewrite IH. reflexivity. Qed.
  Theorem similarity_dot n c m a b : similarity zero add mul req n c m ->
    dot n (mvec n m a) (mvec n m b) == c * dot n a b.
  Proof.
    intros S. rewrite !dot_lsum.
    transitivity (lsum zero add (seq 0 n) (fun i => lsum zero add (seq 0 n) (fun j => lsum zero add (seq 0 n) (fun k => (m k i * m k j) * (a i * b j))))).
    - transitivity (lsum zero add (seq 0 n) (fun k => lsum zero add (seq 0 n) (fun i => lsum zero add (seq 0 n) (fun j => (m k i * m k j) * (a i * b j))))).
      + apply (lsum_ext zero Eq Ext). intros k _. unfold Alg.mvec. rewrite !(rsum_lsum zero add).
        rewrite (Rmul_comm RT), <- (lsum_mul Eq Ext RT). apply (lsum_ext zero Eq Ext). intros i _.
        rewrite (Rmul_comm RT), <- (lsum_mul Eq Ext RT). apply (lsum_ext zero Eq Ext). intros j _. ring.
      + rewrite (lsum_swap Eq Ext RT). apply (lsum_ext zero Eq Ext). intros i _. rewrite (lsum_swap Eq Ext RT). reflexivity.
    - rewrite <- (lsum_mul Eq Ext RT). apply (lsum_ext zero Eq Ext). intros i Hi. apply in_seq in Hi.
      rewrite (lsum_ext zero Eq Ext (g := fun j => if Nat.eqb i j then c * (a i * b j) else zero)).
      + rewrite (lsum_pick Eq Ext RT); [reflexivity|lia].
      + intros j Hj. apply in_seq in Hj.
        transitivity ((a i * b j) * lsum zero add (seq 0 n) (fun k => m k i * m k j)).
        * rewrite <- (lsum_mul Eq Ext RT). apply (lsum_ext zero Eq Ext). intros. ring.
        * rewrite <- (dot_lsum n (fun k => m k i) (fun k => m k j)), (S i j) by lia. destruct (i =? j); ring.
  Qed.

  (** ** Normals *)
  Section Newell.
    Variable mhalf : R.
    Notation newell := (newell zero add mul sub mhalf).
    Notation cross3 := (cross3 mul sub).
    Notation volume := (volume zero add mul sub).
    (** cofactors: the cross product of images *)
    Lemma cross_images m a b c : c < 3 ->
      cross3 c (mvec 3 m a) (mvec 3 m b) ==
      cross3 c (fun k => m k 1) (fun k => m k 2) * cross3 0 a b + cross3 c (fun k => m k 2) (fun k => m k 0) * cross3 1 a b +
      cross3 c (fun k => m k 0) (fun k => m k 1) * cross3 2 a b.
    Proof. intros H. destruct c as [|[|[|c]]]; [| | |lia]; cbn; ring. Qed.
    Lemma cofactor_det m i : i < 3 -> similarity zero add mul req 3 one m ->
      cross3 i (fun k => m k 1) (fun k => m k 2) == volume m * m i 0 /\
      cross3 i (fun k => m k 2) (fun k => m k 0) == volume m * m i 1 /\
      cross3 i (fun k => m k 0) (fun k => m k 1) == volume m * m i 2.
    Proof.
      intros H S.
      assert (S00 := S 0 0 ltac:(lia) ltac:(lia)). assert (S01 := S 0 1 ltac:(lia) ltac:(lia)). assert (S02 := S 0 2 ltac:(lia) ltac:(lia)).
      assert (S10 := S 1 0 ltac:(lia) ltac:(lia)). assert (S11 := S 1 1 ltac:(lia) ltac:(lia)). assert (S12 := S 1 2 ltac:(lia) ltac:(lia)).
      assert (S20 := S 2 0 ltac:(lia) ltac:(lia)). assert (S21 := S 2 1 ltac:(lia) ltac:(lia)). assert (S22 := S 2 2 ltac:(lia) ltac:(lia)).
      cbn in S00, S01, S02, S10, S11, S12, S20, S21, S22.
      unfold TransSpec.volume, TransSpec.dot, sum. cbn [seq map fold_right].
      set (C0 := cross3 i (fun k => m k 1) (fun k => m k 2)). set (C1 := cross3 i (fun k => m k 2) (fun k => m k 0)).
      set (C2 := cross3 i (fun k => m k 0) (fun k => m k 1)).
      repeat split.
      - match type of S00 with ?x == _ => match type of S10 with ?y == _ => match type of S20 with ?z == _ =>
          transitivity (C0 * x + C1 * y + C2 * z); [rewrite S00, S10, S20; ring|] end end end.
        subst C0 C1 C2. destruct i as [|[|[|i]]]; [| | |lia]; cbn; ring.
      - match type of S01 with ?x == _ => match type of S11 with ?y == _ => match type of S21 with ?z == _ =>
          transitivity (C0 * x + C1 * y + C2 * z); [rewrite S01, S11, S21; ring|] end end end.
        subst C0 C1 C2. destruct i as [|[|[|i]]]; [| | |lia]; cbn; ring.
      - match type of S02 with ?x == _ => match type of S12 with ?y == _ => match type of S22 with ?z == _ =>
          transitivity (C0 * x + C1 * y + C2 * z); [rewrite S02, S12, S22; ring|] end end end.
        subst C0 C1 C2. destruct i as [|[|[|i]]]; [| | |lia]; cbn; ring.
    Qed.

    Lemma esum_cross_images m l c : c < 3 -> similarity zero add mul req 3 one m ->
      esum zero add (fun a b => cross3 c (mvec 3 m a) (mvec 3 m b)) l ==
      volume m * mvec 3 m (fun i => esum zero add (cross3 i) l) c.
    Proof.
      intros H S. destruct (cofactor_det H S) as (C0 & C1 & C2). induction l as [|[a b] l IH].
      - cbn. ring.
      - cbn [TriSpec.esum]. rewrite IH, (cross_images m a b H), C0, C1, C2. cbn. ring.
    Qed.
    (** the normal of an image under a rigid map: the image of the normal, up to the sign of the volume *)
    Theorem newell_image t l c : c < 3 -> similarity zero add mul req 3 one (a_mat t) ->
      newell (map (apply 3 t) l) c == volume (a_mat t) * apply_vec 3 t (newell l) c.
    Proof.
      intros H S.
      transitivity (newell (map (fun v i => v i + a_tr t i) (map (mvec 3 (a_mat t)) l)) c).
      { rewrite map_map. reflexivity. }
      rewrite (newell_translate Eq Ext RT), (newell_cross Eq Ext RT), (poly_edges_map).
      rewrite (esum_map zero add). rewrite (esum_cross_images _ H S).
      unfold Alg.a_apply_vec. transitivity (volume (a_mat t) * (- mhalf * mvec 3 (a_mat t) (fun i => esum zero add (cross3 i) (poly_edges l)) c)); [ring|].
      assert (M : mvec 3 (a_mat t) (newell l) c == - mhalf * mvec 3 (a_mat t) (fun i => esum zero add (cross3 i) (poly_edges l)) c).
      { cbn. rewrite !(newell_cross Eq Ext RT). ring. }
      rewrite M. reflexivity.
    Qed.
  End Newell.

  (** ** Meshes *)
  Context {FP : Type}.
  Implicit Types (m : mesh (pnu R) (curve R) FP).
  Notation tr D := (t_transform zero add mul D).
  Notation epoint := (edge_point one add mul sub).

  Lemma tr_vertex D t m v x : wf m -> m_vertex m v = Ok x -> m_vertex (tr D t m) v = Ok (mkV (v_edge x) (u_transform zero add mul D t (v_pay x))).
  Proof.
    intros W H. unfold m_vertex in *. rewrite get_look in *. unfold t_transform, m_transform. cbn [verts].
    rewrite look_map. destruct (look (verts m) v) as [y|]; [|discriminate]. injection H as <-. reflexivity.
  Qed.
  Lemma ends_ok m e : wf m -> lv (abs m) e = true ->
    exists x y, m_vertex m (og (abs m) e) = Ok x /\ m_vertex m (target (abs m) e) = Ok y /\
      edge_ends m e = Ok (u_pos (v_pay x), u_pos (v_pay y)).
  Proof.
    intros Wm L. destruct (wf_abs Wm) as [Rp W]. destruct (r_vertex_live Rp _ (wf_og W _ L)) as (x & X & _).
    assert (LT : lvv (abs m) (target (abs m) e) = true) by (apply (wf_og W), (wf_tw W), L).
    destruct (r_vertex_live Rp _ LT) as (y & Y & _). exists x, y. split; [exact X|]. split; [exact Y|].
    unfold edge_ends. rewrite (get_origin Wm L). cbn [bind]. rewrite X. cbn [bind]. rewrite (get_target Wm L). cbn [bind]. rewrite Y. reflexivity.
  Qed.
  Theorem edge_point_image D t m e x : wf m -> lv (abs m) e = true ->
    exists p q, epoint m e x = Ok p /\ epoint (tr D t m) e x = Ok q /\ forall i, q i == apply D t p i.
  Proof.
    intros Wm L. destruct (wf_abs Wm) as [Rp W]. destruct (r_edge_live Rp _ L) as (ed & E & _).
    destruct (ends_ok Wm L) as (a & b & A & B & EE).
    pose proof (transform_wf (u_transform zero add mul D t) (k_transform zero add mul D t) id Wm) as Wm'.
    pose proof (transform_links (u_transform zero add mul D t) (k_transform zero add mul D t) id m) as SL.
    assert (L' : lv (abs (tr D t m)) e = true) by (unfold t_transform; rewrite (sl_lv SL); exact L).
    destruct (ends_ok Wm' L') as (a' & b' & A' & B' & EE').
    assert (HO : og (abs (tr D t m)) e = og (abs m) e) by apply (sl_og SL).
    assert (HT : target (abs (tr D t m)) e = target (abs m) e) by (unfold target, t_transform; rewrite (sl_tw SL), (sl_og SL); reflexivity).
    fold (tr D t m) in A', B', EE'. rewrite HO, (tr_vertex D t Wm A) in A'. injection A' as <-.
    rewrite HT, (tr_vertex D t Wm B) in B'. injection B' as <-.
    eexists. eexists. unfold edge_point. rewrite E, EE, EE'. cbn [bind].
    split; [reflexivity|]. split.
    { assert (X : m_edge (tr D t m) e = Ok (mkE (e_next ed) (e_twin ed) (e_prev ed) (e_origin ed) (e_face ed) (k_transform zero add mul D t (e_pay ed)))).
      { unfold m_edge in *. rewrite get_look in *. unfold t_transform, m_transform. cbn [edges]. rewrite look_map.
        destruct (look (edges m) e) as [y|]; [|discriminate]. injection E as <-. reflexivity. }
      rewrite X. cbn [bind]. reflexivity. }
    intros i. cbn [e_pay v_pay u_pos u_transform]. apply point_apply.
  Qed.

  Lemma points_image D t m vs l : wf m -> mapM (fun v => let* x := m_vertex m v in Ok (u_pos (v_pay x))) vs = Ok l ->
    mapM (fun v => let* x := m_vertex (tr D t m) v in Ok (u_pos (v_pay x))) vs = Ok (map (apply D t) l).
  Proof.
    intros Wm. revert l. induction vs as [|v vs IH]; intros l H; cbn [mapM] in *.
    - injection H as <-. reflexivity.
    - destruct (m_vertex m v) as [x| |] eqn:E; try discriminate. cbn [bind] in H.
      destruct (mapM _ vs) as [l'| |] eqn:F; try discriminate. cbn [bind] in H. injection H as <-.
      rewrite (tr_vertex D t Wm E). cbn [bind]. rewrite (IH _ eq_refl). reflexivity.
  Qed.
  Lemma face_points_ok m f : wf m -> lvf (abs m) f = true -> exists l, face_points m f = Ok l.
  Proof.
    intros Wm L. destruct (boundary_exists Wm L) as (vs & B). unfold face_points.
    rewrite (boundary_face_vertices Wm L B). cbn [bind]. pose proof (boundary_live Wm B) as F. clear B.
    destruct (wf_abs Wm) as [Rp W]. induction F as [|v vs LV F (l & IH)]; [exists []; reflexivity|].
    destruct (r_vertex_live Rp _ LV) as (x & X & _). exists (u_pos (v_pay x) :: l). cbn [mapM]. rewrite X. cbn [bind].
    rewrite IH. reflexivity.
  Qed.
  Theorem face_points_image D t m f : wf m -> lvf (abs m) f = true ->
    exists l, face_points m f = Ok l /\ face_points (tr D t m) f = Ok (map (apply D t) l).
  Proof.
    intros Wm L. destruct (face_points_ok Wm L) as (l & H). exists l. split; [exact H|].
    pose proof (transform_wf (u_transform zero add mul D t) (k_transform zero add mul D t) id Wm) as Wm'.
    pose proof (transform_links (u_transform zero add mul D t) (k_transform zero add mul D t) id m) as SL.
    fold (tr D t m) in Wm', SL. assert (L' : lvf (abs (tr D t m)) f = true) by (rewrite (sl_lvf SL); exact L).
    destruct (boundary_exists Wm L) as (vs & B). unfold face_points in *.
    rewrite (boundary_face_vertices Wm L B) in H. cbn [bind] in H.
    rewrite (boundary_face_vertices Wm' L' (links_boundary SL B)). cbn [bind]. apply (points_image D t Wm H).
  Qed.
  Theorem face_normal_image mhalf t m f : wf m -> lvf (abs m) f = true -> similarity zero add mul req 3 one (a_mat t) ->
    exists n n', face_normal zero add mul sub mhalf m f = Ok n /\ face_normal zero add mul sub mhalf (tr 3 t m) f = Ok n' /\
      forall c, c < 3 -> n' c == volume zero add mul sub (a_mat t) * apply_vec 3 t n c.
  Proof.
    intros Wm L S. destruct (face_points_image 3 t Wm L) as (l & H & H'). unfold face_normal. rewrite H, H'. cbn [bind].
    eexists. eexists. split; [reflexivity|]. split; [reflexivity|]. intros c C. apply newell_image; auto.
  Qed.

  Lemma tr_same D m fv1 fv2 fk1 fk2 : (forall p, same_pnu req D (fv1 p) (fv2 p)) -> (forall c, same_curve req D (fk1 c) (fk2 c)) ->
    same_mesh req D (abs (m_transform fv1 fk1 id m)) (abs (m_transform fv2 fk2 id m)).
  Proof.
    intros V K. split; [|split; [|split]].
    - pose proof (transform_links fv1 fk1 id m) as [? ? ? ? ? ? ? ? ? ?].
      pose proof (transform_links fv2 fk2 id m) as [? ? ? ? ? ? ? ? ? ?]. split; intros; congruence.
    - intros v. destruct (transform_pays fv1 fk1 id m) as (_ & -> & _). destruct (transform_pays fv2 fk2 id m) as (_ & -> & _).
      destruct (vp (abs m) v); cbn; auto.
    - intros v. destruct (transform_pays fv1 fk1 id m) as (-> & _ & _). destruct (transform_pays fv2 fk2 id m) as (-> & _ & _).
      destruct (ep (abs m) v); cbn; auto.
    - intros v. destruct (transform_pays fv1 fk1 id m) as (_ & _ & ->). destruct (transform_pays fv2 fk2 id m) as (_ & _ & ->). reflexivity.
  Qed.
  Lemma same_vec_refl n v : same_vec req n v v.
  Proof. intros i _. reflexivity. Qed.
  Theorem translate_transform D v m :
    same_mesh req D (abs (t_translate zero one add mul D v m)) (abs (tr D (a_from_translation zero one v) m)).
  Proof.
    apply tr_same.
    - intros p. split; [|split]; cbn; [| |apply same_vec_refl]; intros i Hi.
      + symmetry. apply (from_translation_apply Eq Ext RT); exact Hi.
      + unfold Alg.a_apply_vec, a_from_translation. cbn [a_mat]. rewrite (mvec_ident Eq Ext RT) by exact Hi. reflexivity.
    - intros [|c|c1 c2]; cbn; auto using same_vec_refl.
  Qed.
  Lemma transform_twice {VP EP GP : Type} (fv1 fv2 : VP -> VP) (fh1 fh2 : EP -> EP) (m : mesh VP EP GP) :
    m_transform fv2 fh2 id (m_transform fv1 fh1 id m) = m_transform (fun p => fv2 (fv1 p)) (fun p => fh2 (fh1 p)) id m.
  Proof.
    unfold m_transform. cbn [edges verts faces]. f_equal; unfold d_map; cbn [slots free]; rewrite map_map;
      (f_equal; apply map_ext; intros [[k x]|]; reflexivity).
  Qed.
  Theorem transform_chain D eqz t o m : (forall x, x == zero -> eqz x = true) ->
    exists c, a_chain zero one add mul D eqz t o = Ok c /\
      same_mesh req D (abs (tr D o (tr D t m))) (abs (tr D c m)).
  Proof.
    intros EZ. destruct (chain_apply Eq Ext RT D EZ t o) as (c & C & A & B). exists c. split; [exact C|].
    unfold t_transform. rewrite transform_twice. apply tr_same.
    - intros p. split; [|split]; cbn; [| |apply same_vec_refl]; intros i Hi; symmetry; auto.
    - intros [|k|k1 k2]; cbn; auto; try split; intros i Hi; symmetry; auto.
  Qed.
End Ring.
