(** Extrusions of a hole of any length and the solids of any size. *)
From Coq Require Import List Arith Lia Bool Permutation.
From Verif Require Import Base DVec DVecFacts Mesh Spec Rep Splice Cycle Traverse Room Ops MeshSpec MeshProofs
  MeshMore CheckProofs MeshTotal MeshFacts NetProofs BuildSpec Solid SolidSpec BuildStep PathProofs ApexProofs LoftProofs TriProofs PartProofs.
Import ListNotations.
Set Implicit Arguments.
Unset Strict Implicit.

Local Arguments abs : simpl never.

(** * lists *)
Lemma map_some A (xs ys : list A) : map Some xs = map Some ys -> xs = ys.
Proof. revert ys. induction xs as [|x xs IH]; intros [|y ys] H; cbn in H; try discriminate; auto. f_equal; [congruence|]. apply IH. congruence. Qed.
Lemma cyc_rot A (a : A) l : Permutation (cyc (l ++ [a])) (cyc (a :: l)).
Proof.
  destruct l as [|b l]; [reflexivity|]. unfold cyc. cbn [tl firstn app].
  rewrite <- app_assoc. cbn [app]. change (b :: l ++ [a]) with ((b :: l) ++ [a]).
  assert (E : forall (x y u v : list A), length x = length y -> combine (x ++ u) (y ++ v) = combine x y ++ combine u v).
  { induction x; intros [|]; cbn; intros; try lia; auto. f_equal. auto. }
  replace (l ++ [a; b]) with ((l ++ [a]) ++ [b]) by (rewrite <- app_assoc; auto).
  rewrite E by (rewrite app_length; cbn; lia). cbn [combine].
  rewrite Permutation_app_comm. reflexivity.
Qed.
Lemma fans_rot A (a v : A) l : Permutation (fans (l ++ [a]) v) (fans (a :: l) v).
Proof. apply Permutation_map, cyc_rot. Qed.
Lemma combine_app' A B (x : list A) : forall (y : list B) u v, length x = length y -> combine (x ++ u) (y ++ v) = combine x y ++ combine u v.
Proof. induction x; intros [|]; cbn; intros; try lia; auto. f_equal. auto. Qed.
Lemma quads_rot A (a c : A) l k : length l = length k -> Permutation (quads (l ++ [a]) (k ++ [c])) (quads (a :: l) (c :: k)).
Proof.
  intros E. apply Permutation_map.
  assert (R : forall (a : A) l, exists r p, cyc (a :: l) = p :: r /\ cyc (l ++ [a]) = r ++ [p] /\ length r = length l).
  { clear. intros a l. destruct l as [|b l]; [exists [], (a, a); auto|].
    exists (combine (b :: l) (l ++ [a])), (a, b). split; [reflexivity|]. split.
    - unfold cyc. cbn [tl firstn app]. rewrite <- app_assoc. cbn [app]. change (b :: l ++ [a]) with ((b :: l) ++ [a]).
      replace (l ++ [a; b]) with ((l ++ [a]) ++ [b]) by (rewrite <- app_assoc; auto).
      rewrite combine_app' by (rewrite app_length; cbn; lia). auto.
    - rewrite combine_length, app_length. cbn [length]. lia. }
  destruct (R a l) as (r & p & -> & -> & L1), (R c k) as (r' & p' & -> & -> & L2).
  rewrite combine_app' by lia. cbn [combine]. rewrite Permutation_app_comm. reflexivity.
Qed.
Lemma turn_turn A (l : list A) : turn (turn l) = l.
Proof. destruct l; cbn; auto. rewrite rev_involutive. auto. Qed.

Section SolidP.
  Context {VP EP FP : Type}.
  Notation graph := (graph VP EP FP).
  Notation mesh := (mesh VP EP FP).
  Implicit Types (g : graph) (m : mesh).
  Variable (dE : EP) (dF : FP).
  Notation part := (part dF).

  Lemma moved_ok m (tr : VP -> VP) l : wf m -> (forall e, In e l -> lv (abs m) e = true) ->
    exists ys, moved m tr l = Ok ys /\ map Some ys = map (fun e => option_map tr (vp (abs m) (og (abs m) e))) l.
  Proof.
    intros Wm. unfold moved. induction l as [|e l IH]; intros LL; [exists []; auto|].
    destruct IH as (ys & E & P); [intros; apply LL; right; auto|].
    assert (Le : lv (abs m) e = true) by (apply LL; left; auto).
    pose proof (wfW Wm) as W. destruct (wf_abs Wm) as [R _].
    destruct (r_vertex_live R (og (abs m) e)) as (x & EX & _ & VX); [apply (wf_og W _ Le)|].
    exists (tr (v_pay x) :: ys). cbn [mapM]. rewrite (get_origin Wm Le). cbn [bind]. rewrite EX. cbn [bind]. rewrite E. cbn [bind].
    split; auto. cbn [map]. rewrite VX, P. auto.
  Qed.

  Lemma map_pay_len g (f : nat -> option VP) ys (l : list nat) : map Some ys = map f l -> length ys = length l.
  Proof. intros E. apply (f_equal (@length _)) in E. rewrite !map_length in E. exact E. Qed.

  (** * extrusions *)
  Lemma extrude_total c m start t (tr : VP -> VP) a b d : wf m -> let n := length (start :: t) in
    hole (abs m) (start :: t) -> 3 <= n -> fits c m (4 * n + a) (n + b) (n + S d) ->
    exists m' ps ts vs fs cap, extrude dE dF c m start tr = Ok (m', last ts 0) /\ wf m' /\ fits c m' a b d /\
      length ts = n /\ extruded (abs m) (abs m') (t ++ [start]) tr dF ps ts vs fs cap.
  Proof.
    intros Wm n H N F. pose proof (wfW Wm) as W.
    assert (Ls : lv (abs m) start = true) by (apply (hole_live H); left; auto).
    destruct t as [|e1 t]; [cbn in *; lia|].
    assert (Le : lv (abs m) e1 = true) by (apply (hole_live H); right; left; auto).
    assert (NX : nx (abs m) start = e1) by (apply (loop_nx (proj1 H))).
    assert (H' : hole (abs m) (e1 :: t ++ [start])) by (apply (@hole_rot _ _ _ _ [start] (e1 :: t)); exact H).
    destruct (wf_abs Wm) as [R _].
    assert (EB : edges_face_back m e1 = Ok (e1 :: rev (t ++ [start]))) by (apply (edges_face_back_ok R W); auto; apply H').
    destruct (@moved_ok m tr (e1 :: rev (t ++ [start])) Wm) as (ys & EM & PM).
    { intros x I. apply (hole_live H'). destruct I as [<-|I]; [left; auto|right; apply in_rev; auto]. }
    destruct ys as [|y ys]; [discriminate|].
    assert (LY : length (y :: ys) = n).
    { apply (map_pay_len (abs m)) in PM. rewrite PM. cbn. rewrite rev_length, app_length. cbn. unfold n. cbn. lia. }
    destruct (@loft_back_total _ _ _ dE dF c m start (e1 :: t) y ys a b (S d) Wm H N LY F)
      as (m1 & ps & ts & vs & fs & E1 & Wm1 & F1 & LT & B).
    pose proof (wfW Wm1) as W1. pose proof (bb_grown B) as G1. pose proof (bb_hole B) as HT.
    destruct (@exists_last _ ts) as (ts' & z & ET); [intros ->; cbn in LT; unfold n in *; cbn in *; lia|].
    assert (HT' : hole (abs m1) (z :: ts')) by (apply (@hole_rot _ _ _ _ ts' [z]); rewrite <- ET; exact HT).
    destruct (do_chole dF Wm1 F1 HT') as (m2 & f & _ & E2 & Wm2 & F2 & G2 & FI).
    exists m2, ps, ts, vs, fs, f. split.
    - unfold extrude. rewrite (get_boundary Wm Ls), (proj2 H start (or_introl eq_refl)). cbn [bind is_none assert].
      rewrite (get_next Wm Ls), NX. cbn [bind]. rewrite EB. cbn [bind]. rewrite EM. cbn [bind]. rewrite E1. cbn [bind].
      rewrite ET, last_last. rewrite E2. reflexivity.
    - split; auto. split; auto. split; auto.
      assert (LP : forall x, In x (ps ++ ts) -> lv (abs m1) x = true) by (intros x I; apply (gr_e G1); right; apply in_app_iff; auto).
      split.
      + rewrite (map_tw_grown G2 LP).
        assert (GT : grown (abs m) (abs m2) ((e1 :: t) ++ [start]) (((ps ++ ts) ++ map (tw (abs m1)) (ps ++ ts)) ++ []) (vs ++ []) (fs ++ [f])).
        { apply (grown_trans G1 G2). intros x I. right. apply (gr_new_e G1). apply in_app_iff. left. apply in_app_iff. right.
          rewrite ET. apply in_app_iff. destruct I as [<-|I]; [right; left; auto|left; auto]. }
        rewrite !app_nil_r in GT. exact GT.
      + eapply band_keep; [exact W1|exact G2|apply (proj2 HT')|apply (bb_band B)|]. intros x I. apply LP, in_app_iff; auto.
      + eapply lt_grown; [exact W1|exact G2|apply (bb_rim B)].
      + rewrite ET. apply (@face_is_rot _ _ _ _ _ [z] ts'). exact FI.
      + rewrite (map_vp_grown G2), (bb_pay B); [|intros v I; apply (gr_new_v G1 I)].
        cbn [map] in PM |- *. rewrite map_rev in PM |- *. pose proof (f_equal (hd None) PM) as P1. pose proof (f_equal (@tl _) PM) as P2.
        cbn [hd tl] in P1, P2. rewrite P1, P2, rev_involutive. reflexivity.
  Qed.

  Lemma hole_noself g L : WF g -> loop g L -> NoDup (map (og g) L) -> 2 <= length L ->
    forall e, In e L -> og g e <> target g e.
  Proof.
    intros W HL ND N e I. assert (Le : lv g e = true) by (apply (loop_live' HL I)).
    rewrite <- (wf_ognx W _ Le : og g (nx g e) = target g e).
    apply in_split in I as (p & q & EL).
    assert (Q : exists b r, nx g e = b /\ Permutation L (e :: b :: r)).
    { destruct q as [|b q].
      - destruct p as [|b p]; [rewrite EL in N; cbn in N; lia|]. exists b, p.
        split; [apply (loop_nx_wrap (p := p) HL EL)|]. rewrite EL. rewrite Permutation_app_comm. reflexivity.
      - exists b, (p ++ q). split; [apply (loop_nx_at (p := p) (q := q) HL EL)|].
        rewrite EL. rewrite <- Permutation_middle. apply perm_skip. rewrite <- Permutation_middle. reflexivity. }
    destruct Q as (b & r & -> & P). apply (Permutation_map (og g)) in P. apply (Permutation_NoDup P) in ND.
    cbn [map] in ND. apply NoDup_cons_iff in ND as [ND _]. intros Q. apply ND. rewrite Q. left; auto.
  Qed.

  Lemma tri_cap_total c m start t ys a b d : wf m -> let n := length (start :: t) in
    hole (abs m) (start :: t) -> (forall e, In e (start :: t) -> og (abs m) e <> target (abs m) e) ->
    3 <= n -> length ys = n -> fits c m (6 * n + a) (n + b) (2 * n + S d) ->
    exists m' ps ds ts vs fs hs cap,
      (let* (m1, e) := loft_tri_closed dE dF c m start ys in let* m2 := chole dF c m1 e in Ok (m2, e)) = Ok (m', hd 0 ts) /\
      wf m' /\ fits c m' a b d /\ length ts = n /\
      extruded_tri (abs m) (abs m') (start :: t) ys dF ps ds ts vs fs hs cap.
  Proof.
    intros Wm n H NS N LY F. pose proof (wfW Wm) as W.
    destruct ys as [|y ys]; [cbn in LY; unfold n in *; cbn in *; lia|].
    destruct (@loft_tri_total _ _ _ dE dF c m start t y ys a b (S d) Wm H NS N LY F)
      as (m1 & ps & ds & ts & vs & fs & hs & E1 & Wm1 & F1 & LT & B).
    pose proof (wfW Wm1) as W1. pose proof (tb_grown B) as G1. pose proof (tb_hole B) as HT.
    destruct ts as [|t1 ts]; [cbn in LT; unfold n in *; cbn in *; lia|].
    destruct (do_chole dF Wm1 F1 HT) as (m2 & f & _ & E2 & Wm2 & F2 & G2 & FI).
    exists m2, ps, ds, (t1 :: ts), vs, fs, hs, f. split.
    - rewrite E1. cbn [bind hd]. rewrite E2. reflexivity.
    - split; auto. split; auto. split; auto.
      assert (LP : forall x, In x (ps ++ ds ++ t1 :: ts) -> lv (abs m1) x = true) by (intros x I; apply (gr_e G1); right; apply in_app_iff; auto).
      split.
      + rewrite (map_tw_grown G2 LP).
        assert (GT : grown (abs m) (abs m2) (start :: t) (((ps ++ ds ++ t1 :: ts) ++ map (tw (abs m1)) (ps ++ ds ++ t1 :: ts)) ++ []) (vs ++ []) ((fs ++ hs) ++ [f])).
        { apply (grown_trans G1 G2). intros x I. right. apply (gr_new_e G1). apply in_app_iff. left.
          apply in_app_iff. right. apply in_app_iff. right. exact I. }
        rewrite !app_nil_r in GT. exact GT.
      + eapply tband_keep; [exact W1|exact G2|apply (proj2 HT)|apply (tb_band B)|]. intros x I. apply LP. apply in_app_iff. right. apply in_app_iff; auto.
      + eapply lt_grown; [exact W1|exact G2|apply (tb_rim B)].
      + exact FI.
      + rewrite (map_vp_grown G2), (tb_pay B); auto. intros v I. apply (gr_new_v G1 I).
  Qed.

  (** [extrude_tri]: the vertex over the origin of a half-edge is the moved origin of the next. *)
  Lemma extrude_tri_total c m start t (tr : VP -> VP) a b d : wf m -> let n := length (start :: t) in
    hole (abs m) (start :: t) -> (forall e, In e (start :: t) -> og (abs m) e <> target (abs m) e) ->
    3 <= n -> fits c m (6 * n + a) (n + b) (2 * n + S d) ->
    exists m' xs ps ds ts vs fs hs cap, extrude_tri dE dF c m start tr = Ok (m', hd 0 ts) /\ wf m' /\ fits c m' a b d /\
      length ts = n /\ extruded_tri (abs m) (abs m') (start :: t) xs dF ps ds ts vs fs hs cap /\
      map Some xs = map (fun e => option_map tr (vp (abs m) (target (abs m) e))) (start :: t).
  Proof.
    intros Wm n H NS N F. pose proof (wfW Wm) as W.
    assert (Ls : lv (abs m) start = true) by (apply (hole_live H); left; auto).
    destruct t as [|e1 t]; [cbn in *; lia|].
    assert (NX : nx (abs m) start = e1) by (apply (loop_nx (proj1 H))).
    assert (H' : hole (abs m) (e1 :: t ++ [start])) by (apply (@hole_rot _ _ _ _ [start] (e1 :: t)); exact H).
    destruct (wf_abs Wm) as [R _].
    assert (EB : edges_face m e1 = Ok (e1 :: t ++ [start])) by (apply (edges_face_ok R W); auto; apply H'; left; auto).
    destruct (@moved_ok m tr (e1 :: t ++ [start]) Wm) as (ys & EM & PM); [intros x I; apply (hole_live H' I)|].
    assert (LY : length ys = n).
    { apply (map_pay_len (abs m)) in PM. rewrite PM. cbn. rewrite app_length. cbn. unfold n. cbn. lia. }
    destruct (@tri_cap_total c m start (e1 :: t) ys a b d Wm H NS N LY F)
      as (m' & ps & ds & ts & vs & fs & hs & cap & E & Wm' & F' & LT & X).
    exists m', ys, ps, ds, ts, vs, fs, hs, cap. split.
    - unfold extrude_tri. rewrite (get_boundary Wm Ls), (proj2 H start (or_introl eq_refl)). cbn [bind is_none assert].
      rewrite (get_next Wm Ls), NX. cbn [bind]. rewrite EB. cbn [bind]. rewrite EM. cbn [bind]. exact E.
    - do 4 (split; auto). rewrite PM. clear - W H.
      assert (A : forall l e x, (forall y, In y (e :: l ++ [x]) -> lv (abs m) y = true) ->
        (forall p u v q, e :: l ++ [x] = p ++ u :: v :: q -> nx (abs m) u = v) ->
        map (fun e => option_map tr (vp (abs m) (og (abs m) e))) (l ++ [x]) =
        map (fun e => option_map tr (vp (abs m) (target (abs m) e))) (e :: l)).
      { induction l as [|u l IH]; intros e x LL NX; cbn [app map].
        - rewrite <- (NX [] e x [] eq_refl). rewrite (wf_ognx W); auto. apply LL; left; auto.
        - f_equal.
          + rewrite <- (NX [] e u (l ++ [x]) eq_refl). rewrite (wf_ognx W); auto. apply LL; left; auto.
          + apply IH; [intros y I; apply LL; right; auto|]. intros p y z q Q. apply (NX (e :: p) y z q). cbn. rewrite <- Q. auto. }
      pose proof (A (e1 :: t) start start) as B. cbn [app] in B. apply B.
      + intros x I. apply (hole_live H). change (In x ((start :: e1 :: t) ++ [start])) in I. apply in_app_iff in I as [I|[<-|[]]]; [auto|left; auto].
      + intros p u v q Q. change ((start :: e1 :: t) ++ [start] = p ++ u :: v :: q) in Q.
        destruct q as [|z q] using rev_ind.
        * replace (p ++ [u; v]) with ((p ++ [u]) ++ [v]) in Q by (rewrite <- app_assoc; auto).
          apply app_inj_tail in Q as [Q <-]. destruct p as [|p0 p]; [discriminate|].
          cbn [app] in Q. injection Q as <- Q. apply (loop_nx_wrap (p := p) (proj1 H)). cbn [app]. rewrite Q. reflexivity.
        * replace (p ++ u :: v :: q ++ [z]) with ((p ++ u :: v :: q) ++ [z]) in Q by (rewrite <- app_assoc; auto).
          apply app_inj_tail in Q as [Q _]. apply (loop_nx_at (p := p) (q := q) (proj1 H) Q).
  Qed.

  (** * removing a face *)
  Lemma fr_loop g g' f l : face_removed g g' f -> loop g l -> loop g' l.
  Proof.
    intros FR [LL C]. split.
    - intros x I. rewrite (proj1 (fr_edges FR x)). auto.
    - eapply cycle_ext; [|exact C]. intros x I. symmetry. apply (fr_edges FR x). auto.
  Qed.
  Lemma fr_hole g g' f l y cu : face_removed g g' f -> face_is g f l y cu -> hole g' l.
  Proof.
    intros FR (A & B & C & D). split; [eapply fr_loop; eauto|]. intros x I.
    rewrite (fr_label FR); [|apply C; auto]. rewrite (D x I). cbn. rewrite Nat.eqb_refl. auto.
  Qed.
  Lemma fr_poly g g' f f' l y : face_removed g g' f -> f' <> f -> poly g y f' l -> poly g' y f' l.
  Proof.
    intros FR N (es & (A & B & C & D) & <-). exists es. split.
    - destruct (fr_faces FR N) as [Q1 Q2]. destruct (Q2 A) as [_ Q3]. split; [rewrite Q1; auto|]. split; [rewrite Q3; auto|].
      split; [eapply fr_loop; eauto|]. intros x I. rewrite (fr_label FR); [|apply C; auto]. rewrite (D x I).
      destruct (oeqb (Some f') (Some f)) eqn:Q; auto. apply oeqb_eq in Q. congruence.
    - apply map_ext_in. intros e I. apply (fr_edges FR e). apply C; auto.
  Qed.
  Lemma part_remove m g' vs ne f fs p polys l hs : part (abs m) vs ne (f :: fs) (p :: polys) hs -> face_removed (abs m) g' f ->
    face_is (abs m) f l dF false -> WF (abs m) -> (forall x, lv (abs m) x = true -> fc (abs m) x = Some f -> In x l) ->
    part g' vs ne fs polys (l ++ hs).
  Proof.
    intros P FR FI W AL. destruct (pa_f P) as [ND LF]. apply NoDup_cons_iff in ND as [N1 ND]. split.
    - destruct (pa_v P) as [A B]. split; auto. intros v. rewrite (proj1 (fr_vertices FR v)). apply B.
    - destruct (pa_e P) as (es & [A B] & LE). exists es. split; auto. split; auto. intros e. rewrite (proj1 (fr_edges FR e)). apply B.
    - split; auto. intros x. destruct (Nat.eq_dec x f) as [->|NE].
      + rewrite (proj2 (fr_face FR)). split; [discriminate|tauto].
      + rewrite (proj1 (fr_faces FR NE)), LF. cbn. split; [intros [|]; congruence|auto].
    - pose proof (pa_polys P) as Q. inversion Q as [|? ? ? ? Q1 Q2]; subst. clear - FR N1 Q2.
      induction Q2; constructor.
      + eapply fr_poly; eauto. intros ->. apply N1. left; auto.
      + apply IHQ2. intros I. apply N1. right; auto.
    - intros e Le Fe. rewrite (proj1 (fr_edges FR e)) in Le. rewrite (fr_label FR) in Fe by auto. apply in_app_iff.
      destruct (oeqb (fc (abs m) e) (Some f)) eqn:Q.
      + apply oeqb_eq in Q. left. apply AL; auto.
      + right. apply (pa_open P); auto.
  Qed.

  Lemma extrude_face_total c m f l x0 cu (tr : VP -> VP) a b d : wf m -> face_is (abs m) f (fe (abs m) f :: l) x0 cu ->
    let n := S (length l) in 3 <= n -> fits c m (4 * n + a) (n + b) (n + d) ->
    exists m1 m' ps ts vs fs cap, extrude_face dE dF c m f tr = Ok (m', last ts 0) /\ wf m' /\ fits c m' a b d /\
      length ts = n /\ face_removed (abs m) (abs m1) f /\
      extruded (abs m1) (abs m') (l ++ [fe (abs m) f]) tr dF ps ts vs fs cap.
  Proof.
    intros Wm FI n N F. pose proof (wfW Wm) as W. destruct FI as (LF & PF & HL & FF).
    destruct (t_remove_face Wm F LF) as (m1 & y & E & F1).
    destruct (spec_remove_face Wm E) as (Wm1 & FR & _).
    assert (FI : face_is (abs m) f (fe (abs m) f :: l) x0 cu) by (split; auto).
    pose proof (fr_hole FR FI) as H.
    replace (S (n + d)) with (n + S d) in F1 by lia.
    destruct (@extrude_total c m1 (fe (abs m) f) l tr a b d Wm1 H N F1) as (m' & ps & ts & vs & fs & cap & EX & Wm' & F' & LT & X).
    exists m1, m', ps, ts, vs, fs, cap. split; [|auto 6].
    destruct (wf_abs Wm) as [R _]. destruct (r_face_live R f LF) as (x & EQ & FE & _).
    unfold extrude_face. rewrite EQ. cbn [bind]. rewrite E. cbn [bind]. rewrite <- FE. exact EX.
  Qed.
End SolidP.
