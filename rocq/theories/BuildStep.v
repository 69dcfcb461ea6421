(** One step of a composite operation, in the vocabulary of [BuildSpec]. *)
From Coq Require Import List Arith Lia Bool Permutation.
From Verif Require Import Base DVec DVecFacts Mesh Spec Rep Splice Cycle Traverse Room Ops MeshSpec MeshProofs
  MeshMore MeshTotal NetProofs BuildSpec Solid.
Import ListNotations.
Set Implicit Arguments.
Unset Strict Implicit.

Lemma added_nil (live live' : nat -> bool) : (forall x, live' x = live x) -> added live live' [].
Proof. intros H. split; [constructor|]. split; [intros x []|]. intros x. rewrite H. cbn. tauto. Qed.

Lemma added_app (l0 l1 l2 : nat -> bool) N1 N2 : added l0 l1 N1 -> added l1 l2 N2 -> added l0 l2 (N1 ++ N2).
Proof.
  intros (D1 & F1 & E1) (D2 & F2 & E2). split; [|split].
  - apply nd_app; auto. intros x I1 I2. apply F2 in I2. assert (l1 x = true) by (apply E1; auto). congruence.
  - intros x I. apply in_app_iff in I as [I|I]; auto. apply F2 in I. destruct (l0 x) eqn:Q; auto.
    assert (l1 x = true) by (apply E1; auto). congruence.
  - intros x. rewrite E2, E1, in_app_iff. tauto.
Qed.

Lemma added_perm l0 l1 N N' : Permutation N N' -> added l0 l1 N -> added l0 l1 N'.
Proof.
  intros P (D & F & E). split; [eapply Permutation_NoDup; eauto|]. split.
  - intros x I. apply F. apply Permutation_in with N'; auto. symmetry; auto.
  - intros x. rewrite E. split; intros [|I]; auto; right;
      [apply Permutation_in with N|apply Permutation_in with N']; auto. symmetry; auto.
Qed.

Local Arguments abs : simpl never.
Section Step.
  Context {VP EP FP : Type}.
  Notation graph := (graph VP EP FP).
  Notation mesh := (mesh VP EP FP).
  Implicit Types (g : graph) (m : mesh).
  Variable (dE : EP) (dF : FP).

  (** * [grown] *)
  Lemma grown_trans g0 g1 g2 L L1 E1 V1 F1 E2 V2 F2 :
    grown g0 g1 L E1 V1 F1 -> grown g1 g2 L1 E2 V2 F2 -> (forall x, In x L1 -> In x L \/ lv g0 x = false) ->
    grown g0 g2 L (E1 ++ E2) (V1 ++ V2) (F1 ++ F2).
  Proof.
    intros G1 G2 I. split.
    - eapply added_app; [apply G1|apply G2].
    - eapply added_app; [apply G1|apply G2].
    - eapply added_app; [apply G1|apply G2].
    - intros e Le. destruct (gr_old_e G1 Le) as (A & B & C).
      destruct (gr_old_e G2 (proj2 (proj2 (proj2 (gr_e G1)) e) (or_introl Le))) as (A' & B' & C').
      repeat split; congruence.
    - intros v Lv. destruct (gr_old_v G1 Lv) as (A & B).
      destruct (gr_old_v G2 (proj2 (proj2 (proj2 (gr_v G1)) v) (or_introl Lv))) as (A' & B'). split; congruence.
    - intros v Lv. destruct (gr_old_f G1 Lv) as (A & B).
      destruct (gr_old_f G2 (proj2 (proj2 (proj2 (gr_f G1)) v) (or_introl Lv))) as (A' & B'). split; congruence.
    - intros l Hl D. destruct (gr_loops G1 Hl D) as [A B]. destruct (gr_loops G2 A) as [A' B'].
      + intros x Ix Ix1. destruct (I x Ix1) as [J|J]; [apply (D x Ix J)|].
        assert (lv g0 x = true) by (apply Hl; auto). congruence.
      + split; auto. intros x Ix. rewrite B'; auto.
  Qed.

  Lemma grown_refl g L : grown g g L [] [] [].
  Proof. split; auto using added_nil. Qed.

  Lemma grown_weaken g g' L L' E V F : grown g g' L E V F -> (forall x, In x L -> In x L') -> grown g g' L' E V F.
  Proof.
    intros G I. split; try apply G. intros l Hl D. apply (gr_loops G); auto. intros x Ix J. apply (D x Ix); auto.
  Qed.

  Lemma grown_perm g g' L E V F E' V' F' : grown g g' L E V F -> Permutation E E' -> Permutation V V' -> Permutation F F' ->
    grown g g' L E' V' F'.
  Proof. intros G PE PV PF. split; try apply G; (eapply added_perm; [eassumption|apply G]). Qed.

  Lemma gr_live_e g g' L E V F x : grown g g' L E V F -> lv g x = true -> lv g' x = true.
  Proof. intros G Lx. apply (gr_e G). auto. Qed.
  Lemma gr_new_e g g' L E V F x : grown g g' L E V F -> In x E -> lv g x = false /\ lv g' x = true.
  Proof. intros G I. split; [apply (gr_e G); auto|]. apply (gr_e G). auto. Qed.
  Lemma gr_live_v g g' L E V F x : grown g g' L E V F -> lvv g x = true -> lvv g' x = true.
  Proof. intros G Lx. apply (gr_v G). auto. Qed.
  Lemma gr_new_v g g' L E V F x : grown g g' L E V F -> In x V -> lvv g x = false /\ lvv g' x = true.
  Proof. intros G I. split; [apply (gr_v G); auto|]. apply (gr_v G). auto. Qed.
  Lemma gr_live_f g g' L E V F x : grown g g' L E V F -> lvf g x = true -> lvf g' x = true.
  Proof. intros G Lx. apply (gr_f G). auto. Qed.
  Lemma gr_new_f g g' L E V F x : grown g g' L E V F -> In x F -> lvf g x = false /\ lvf g' x = true.
  Proof. intros G I. split; [apply (gr_f G); auto|]. apply (gr_f G). auto. Qed.

  Lemma gr_tw g g' L E V F x : grown g g' L E V F -> lv g x = true -> tw g' x = tw g x.
  Proof. intros G Lx. apply (gr_old_e G Lx). Qed.
  Lemma gr_og g g' L E V F x : grown g g' L E V F -> lv g x = true -> og g' x = og g x.
  Proof. intros G Lx. apply (gr_old_e G Lx). Qed.
  Lemma gr_target g g' L E V F x : WF g -> grown g g' L E V F -> lv g x = true -> target g' x = target g x.
  Proof. intros W G Lx. unfold target. rewrite (gr_tw G Lx). apply (gr_og G). apply (wf_tw W); auto. Qed.
  Lemma gr_vp g g' L E V F x : grown g g' L E V F -> lvv g x = true -> vp g' x = vp g x.
  Proof. intros G Lx. apply (gr_old_v G Lx). Qed.
  Lemma gr_leads g g' L E V F e a b : WF g -> grown g g' L E V F -> leads g e a b -> leads g' e a b.
  Proof.
    intros W G (A & B & C). split; [eapply gr_live_e; eauto|]. rewrite (gr_og G A), (gr_target W G A). auto.
  Qed.

  Lemma gr_face_is g g' L E V F f l y cu : grown g g' L E V F -> face_is g f l y cu ->
    (forall x, In x l -> ~ In x L) -> face_is g' f l y cu.
  Proof.
    intros G (A & B & C & D) I. destruct (gr_loops G C I) as [C' D'].
    split; [eapply gr_live_f; eauto|]. split; [rewrite (proj2 (gr_old_f G A)); auto|]. split; auto.
    intros x Ix. rewrite D'; auto.
  Qed.

  Lemma gr_hole g g' L E V F l : grown g g' L E V F -> hole g l ->
    (forall x, In x l -> ~ In x L) -> hole g' l.
  Proof.
    intros G (C & D) I. destruct (gr_loops G C I) as [C' D']. split; auto. intros x Ix. rewrite D'; auto.
  Qed.

  (** * loops *)
  Lemma loop_rot g l1 l2 : loop g (l1 ++ l2) -> loop g (l2 ++ l1).
  Proof. intros [A B]. split; [|apply cycle_rot; auto]. intros x I. apply A, in_app_iff. apply in_app_iff in I. tauto. Qed.
  Lemma hole_rot g l1 l2 : hole g (l1 ++ l2) -> hole g (l2 ++ l1).
  Proof. intros [A B]. split; [apply loop_rot; auto|]. intros x I. apply B, in_app_iff. apply in_app_iff in I. tauto. Qed.
  Lemma face_is_rot g f l1 l2 y cu : face_is g f (l1 ++ l2) y cu -> face_is g f (l2 ++ l1) y cu.
  Proof.
    intros (A & B & C & D). do 2 (split; auto). split; [apply loop_rot; auto|].
    intros x I. apply D, in_app_iff. apply in_app_iff in I. tauto.
  Qed.
  Lemma loop_live' g l x : loop g l -> In x l -> lv g x = true.
  Proof. intros [A _] I. auto. Qed.
  Lemma hole_live g l x : hole g l -> In x l -> lv g x = true.
  Proof. intros [A _] I. eapply loop_live'; eauto. Qed.
  Lemma loop_nodup g l : loop g l -> NoDup l.
  Proof. intros [_ A]. eapply cycle_nodup; eauto. Qed.
  Lemma hole_nodup g l : hole g l -> NoDup l.
  Proof. intros [A _]. eapply loop_nodup; eauto. Qed.

  Lemma loop_nx g a b t : loop g (a :: b :: t) -> nx g a = b.
  Proof. intros [_ C]. apply (@cycle_next _ [] a b t C). Qed.
  Lemma loop_pv g a b t : WF g -> loop g (a :: b :: t) -> pv g b = a.
  Proof. intros W H. rewrite <- (loop_nx H). apply (wf_pvnx W). apply (loop_live' H). left; auto. Qed.
  Lemma loop_og g a b t : WF g -> loop g (a :: b :: t) -> og g b = target g a.
  Proof. intros W H. rewrite <- (loop_nx H). apply (wf_ognx W). apply (loop_live' H). left; auto. Qed.

  Lemma loop_nx_at g l a b p q : loop g l -> l = p ++ a :: b :: q -> nx g a = b.
  Proof. intros H ->. apply loop_rot in H. apply (loop_nx (t := q ++ p)). exact H. Qed.
  Lemma loop_pv_at g l a b p q : WF g -> loop g l -> l = p ++ a :: b :: q -> pv g b = a.
  Proof. intros W H ->. apply loop_rot in H. apply (loop_pv W (t := q ++ p)). exact H. Qed.
  Lemma loop_nx_wrap g l a b p : loop g l -> l = b :: p ++ [a] -> nx g a = b.
  Proof. intros H ->. apply (@loop_rot g (b :: p) [a]) in H. apply (loop_nx (t := p)). exact H. Qed.
  Lemma loop_pv_wrap g l a b p : WF g -> loop g l -> l = b :: p ++ [a] -> pv g b = a.
  Proof. intros W H ->. apply (@loop_rot g (b :: p) [a]) in H. apply (loop_pv W (t := p)). exact H. Qed.
  Lemma loop_nx_one g a : loop g [a] -> nx g a = a.
  Proof. intros [_ (_ & _ & H)]. exact H. Qed.

  (** * getters *)
  Lemma get_next m e : wf m -> lv (abs m) e = true -> next_id m e = Ok (nx (abs m) e).
  Proof. intros Wm L. destruct (wf_abs Wm) as [R W]. rewrite (r_next_id R), L. auto. Qed.
  Lemma get_prev m e : wf m -> lv (abs m) e = true -> prev_id m e = Ok (pv (abs m) e).
  Proof. intros Wm L. destruct (wf_abs Wm) as [R W]. rewrite (r_prev_id R), L. auto. Qed.
  Lemma get_twin m e : wf m -> lv (abs m) e = true -> twin_id m e = Ok (tw (abs m) e).
  Proof. intros Wm L. destruct (wf_abs Wm) as [R W]. rewrite (r_twin_id R), L. auto. Qed.
  Lemma get_origin m e : wf m -> lv (abs m) e = true -> origin_id m e = Ok (og (abs m) e).
  Proof. intros Wm L. destruct (wf_abs Wm) as [R W]. rewrite (r_origin_id R), L. auto. Qed.
  Lemma get_face m e : wf m -> lv (abs m) e = true -> face_id m e = Ok (fc (abs m) e).
  Proof. intros Wm L. destruct (wf_abs Wm) as [R W]. rewrite (r_face_id R), L. auto. Qed.
  Lemma get_boundary m e : wf m -> lv (abs m) e = true -> is_boundary_self m e = Ok (is_none (fc (abs m) e)).
  Proof. intros Wm L. destruct (wf_abs Wm) as [R W]. rewrite (r_boundary R), L. auto. Qed.
  Lemma get_gnext m e : wf m -> lv (abs m) e = true -> g_next m e = Ok (nx (abs m) e).
  Proof. intros Wm L. destruct (wf_abs Wm) as [R W]. apply (next_step R W); auto. Qed.
  Lemma get_gprev m e : wf m -> lv (abs m) e = true -> g_prev m e = Ok (pv (abs m) e).
  Proof. intros Wm L. destruct (wf_abs Wm) as [R W]. apply (prev_step R W); auto. Qed.
  Lemma get_gtwin m e : wf m -> lv (abs m) e = true -> g_twin m e = Ok (tw (abs m) e).
  Proof. intros Wm L. destruct (wf_abs Wm) as [R W]. apply (twin_step R W); auto. Qed.
  Lemma get_target m e : wf m -> lv (abs m) e = true -> target_id m e = Ok (target (abs m) e).
  Proof. intros Wm L. destruct (wf_abs Wm) as [R W]. apply (target_step R W); auto. Qed.
  Lemma wfW m : wf m -> WF (abs m).
  Proof. intros Wm. apply (wf_abs Wm). Qed.

  (** * counting *)
  Lemma added_count (ids ids' : list nat) live live' N : NoDup ids -> NoDup ids' ->
    (forall x, In x ids <-> live x = true) -> (forall x, In x ids' <-> live' x = true) ->
    added live live' N -> length ids' = length ids + length N.
  Proof.
    intros D D' I I' (DN & F & E).
    rewrite <- app_length. apply Permutation_length, NoDup_Permutation; auto.
    - apply nd_app; auto. intros x A B. apply I in A. apply F in B. congruence.
    - intros x. rewrite I', E, in_app_iff, I. tauto.
  Qed.
  Lemma grown_count m m' L E V F : wf m -> wf m' -> grown (abs m) (abs m') L E V F ->
    num_edges m' = num_edges m + length E /\ num_vertices m' = num_vertices m + length V /\
    num_faces m' = num_faces m + length F.
  Proof.
    intros Wm Wm' G.
    assert (NE : forall m, wf m -> num_edges m = length (edge_ids m)).
    { intros m0 W0. unfold num_edges, edge_ids. rewrite map_length.
      destruct W0 as (A & _). rewrite (len_iter A). cbn. lia. }
    rewrite !NE, !num_vertices_ids, !num_faces_ids by auto. repeat split.
    - apply added_count with (lv (abs m)) (lv (abs m')); auto using edge_ids_nodup; try apply G;
        intros x; apply edge_ids_live; auto.
    - apply added_count with (lvv (abs m)) (lvv (abs m')); auto using vertex_ids_nodup; try apply G;
        intros x; apply vertex_ids_live; auto.
    - apply added_count with (lvf (abs m)) (lvf (abs m')); auto using face_ids_nodup; try apply G;
        intros x; apply face_ids_live; auto.
  Qed.

  (** * the steps *)
  Lemma added_pair g g' e1 e2 a b y1 y2 : new_pair g g' e1 e2 a b y1 y2 -> added (lv g) (lv g') [e1; e2].
  Proof.
    intros P. destruct (np_fresh P) as (A & B & C). destruct (np_live P) as [D E]. split; [|split].
    - constructor; [intros [Q|[]]; congruence|]. constructor; [intros []|constructor].
    - intros x [<-|[<-|[]]]; auto.
    - intros x. cbn. destruct (Nat.eq_dec x e1) as [->|N1]; [tauto|]. destruct (Nat.eq_dec x e2) as [->|N2]; [tauto|].
      destruct (np_others P N1 N2) as [Q _]. rewrite Q. firstorder congruence.
  Qed.
  Lemma pair_old g g' e1 e2 a b y1 y2 e : new_pair g g' e1 e2 a b y1 y2 -> lv g e = true ->
    tw g' e = tw g e /\ og g' e = og g e /\ fc g' e = fc g e /\ ep g' e = ep g e.
  Proof.
    intros P L. destruct (np_fresh P) as (A & B & C). apply (np_others P); congruence.
  Qed.

  Lemma grown_vertex g g' i t v e1 e2 y : loop g (i :: t) -> vertex_added g g' i v e1 e2 y dE dE ->
    grown g g' (i :: t) [e1; e2] [v] [].
  Proof.
    intros Hl A. pose proof (va_pair A) as P. destruct (va_vertex A) as (V1 & V2 & V3 & V4). split.
    - apply (added_pair P).
    - split; [constructor; [intros []|constructor]|]. split; [intros x [<-|[]]; auto|].
      intros x. cbn. destruct (Nat.eq_dec x v) as [->|N]; [tauto|]. destruct (va_vertices A N) as [Q _]. rewrite Q.
      firstorder congruence.
    - apply added_nil. intros f. apply (va_faces A f).
    - intros e L. destruct (pair_old P L) as (? & ? & ? & ?). auto.
    - intros w L. apply (va_vertices A); auto. congruence.
    - intros f L. apply (va_faces A f); auto.
    - intros l H D. split; [apply (va_loops A H)|].
      + intros I. apply (D i I). left; auto.
      + intros x I. apply (pair_old P). apply H; auto.
  Qed.

  Lemma grown_edge g g' i o e1 e2 y1 y2 L : In i L -> In o L -> edge_inserted g g' i o e1 e2 y1 y2 ->
    grown g g' L [e1; e2] [] [].
  Proof.
    intros Ii Io A. pose proof (ei_pair A) as P. split.
    - apply (added_pair P).
    - apply added_nil. intros f. apply (ei_vertices A f).
    - apply added_nil. intros f. apply (ei_faces A f).
    - intros e L0. destruct (pair_old P L0) as (? & ? & ? & ?). auto.
    - intros w L0. apply (ei_vertices A); auto.
    - intros f L0. apply (ei_faces A f); auto.
    - intros l H D. split; [apply (ei_loops A H)|].
      + intros I. apply (D i I Ii).
      + intros I. apply (D o I Io).
      + intros x I. apply (pair_old P). apply H; auto.
  Qed.

  Lemma fa_loop g g' e f y cu l : face_added g g' e f y cu -> loop g l -> loop g' l.
  Proof.
    intros A [L C]. split.
    - intros x I. rewrite (proj1 (fa_edges A x)). auto.
    - eapply cycle_ext; [|exact C]. intros x I. destruct (proj2 (fa_edges A x) (L x I)) as (Q & _). auto.
  Qed.

  Lemma grown_face g g' e t f y cu : loop g (e :: t) -> face_added g g' e f y cu ->
    grown g g' (e :: t) [] [] [f].
  Proof.
    intros Hl A. destruct (fa_face A) as (F1 & F2 & F3). split.
    - apply added_nil. intros x. apply (fa_edges A x).
    - apply added_nil. intros x. apply (fa_vertices A x).
    - split; [constructor; [intros []|constructor]|]. split; [intros x [<-|[]]; apply (fa_fresh A)|].
      intros x. cbn. destruct (Nat.eq_dec x f) as [->|N]; [tauto|]. destruct (fa_faces A N) as [Q _]. rewrite Q.
      firstorder congruence.
    - intros x L. destruct (proj2 (fa_edges A x) L) as (? & ? & ? & ? & ?). auto.
    - intros w L0. apply (fa_vertices A); auto.
    - intros f' L0. apply (fa_faces A); auto. intros ->. rewrite (fa_fresh A) in L0. discriminate.
    - intros l H D. split; [eapply fa_loop; eauto|]. intros x I. apply (fa_other_label A Hl); auto. apply H; auto.
  Qed.

  Lemma face_added_is g g' e t f y cu : loop g (e :: t) -> face_added g g' e f y cu -> face_is g' f (e :: t) y cu.
  Proof.
    intros Hl A. destruct (fa_face A) as (F1 & F2 & F3). split; auto. split; auto. split; [eapply fa_loop; eauto|].
    intros x I. apply (fa_label A Hl I).
  Qed.

  Lemma do_via c m i t o y a b d : wf m -> fits c m (2 + a) (S b) d -> hole (abs m) (i :: t) -> o = nx (abs m) i ->
    exists m' v e1 e2, via dE c m i o y = Ok (m', v, e1, e2) /\ wf m' /\ fits c m' a b d /\
      grown (abs m) (abs m') (i :: t) [e1; e2] [v] [] /\ hole (abs m') (i :: e1 :: e2 :: t) /\
      tw (abs m') e1 = e2 /\ tw (abs m') e2 = e1 /\ og (abs m') e1 = target (abs m) i /\ og (abs m') e2 = v /\
      vp (abs m') v = Some y.
  Proof.
    intros Wm F H ->. assert (Li : lv (abs m) i = true) by (apply (hole_live H); left; auto).
    assert (Fi : fc (abs m) i = None) by (apply H; left; auto).
    destruct (t_add_vertex_via_edge y dE dE Wm F Li Fi) as (m' & v & e1 & e2 & E & F').
    destruct (spec_add_vertex_via_edge Wm (or_intror Li) (fun _ => conj eq_refl Fi) E) as (Wm' & _ & A).
    exists m', v, e1, e2. split; auto. split; auto. split; auto. destruct H as [Hl Hf].
    split; [apply grown_vertex with y; auto|]. pose proof (va_pair A) as P.
    split; [split; [apply (va_loop A); auto|]|].
    - intros x I. destruct (np_face P). destruct I as [<-|[<-|[<-|I]]]; auto.
      + rewrite <- Fi. apply (pair_old P); auto.
      + assert (J : In x (i :: t)) by (right; auto). rewrite <- (Hf x J). apply (pair_old P). apply Hl; auto.
    - destruct (np_twin P), (np_origin P), (va_vertex A) as (? & ? & ? & ?). repeat split; auto.
  Qed.

  Lemma do_cface c m i s1 o s2 a b d : wf m -> fits c m (2 + a) b (S d) -> hole (abs m) (i :: s1 ++ o :: s2) ->
    (forall e, leads (abs m) e (target (abs m) i) (target (abs m) o) -> False) ->
    exists m' f e1 e2, cface dE dF c m i o = Ok m' /\ wf m' /\ fits c m' a b d /\
      grown (abs m) (abs m') (i :: s1 ++ o :: s2) [e1; e2] [] [f] /\
      face_is (abs m') f (i :: e1 :: s2) dF false /\ hole (abs m') (o :: e2 :: s1) /\
      tw (abs m') e1 = e2 /\ tw (abs m') e2 = e1 /\
      og (abs m') e1 = target (abs m) i /\ og (abs m') e2 = target (abs m) o.
  Proof.
    intros Wm F H N. destruct H as [Hl Hf].
    assert (Fi : fc (abs m) i = None) by (apply Hf; left; auto).
    assert (N' : forall e, lv (abs m) e = true ->
      ~ (og (abs m) e = og (abs m) (tw (abs m) i) /\ og (abs m) (tw (abs m) e) = og (abs m) (tw (abs m) o))).
    { intros e L [A B]. apply (N e). split; auto. }
    destruct (t_close_face dE dE dF false Wm F Hl Fi N') as (m' & f & e1 & e2 & E & F').
    assert (Io : In o (i :: s1 ++ o :: s2)) by (right; apply in_app_iff; right; left; auto).
    assert (ND : NoDup (i :: s1 ++ o :: s2)) by (apply (loop_nodup Hl)).
    assert (IO : i <> o).
    { inversion ND; subst. intros ->. apply H1, in_app_iff. right; left; auto. }
    destruct (spec_close_face Wm (or_intror (conj IO (conj Fi (Hf o Io)))) E) as (Wm' & _ & _ & _ & _ & _ & g1 & W1 & A & B).
    exists m', f, e1, e2. unfold cface. rewrite E. cbn [bind]. split; auto. split; auto. split; auto.
    destruct (ei_split A Hl) as [L1 L2]. pose proof (ei_pair A) as P.
    assert (G1 : grown (abs m) g1 (i :: s1 ++ o :: s2) [e1; e2] [] []) by (eapply grown_edge; [left; reflexivity|exact Io|exact A]).
    assert (G2 : grown g1 (abs m') (i :: e1 :: s2) [] [] [f]) by (eapply grown_face; eauto).
    destruct (np_fresh P) as (P1 & P2 & P3). destruct (np_live P) as [Q1 Q2]. destruct (np_twin P) as [T1 T2].
    destruct (np_origin P) as [O1 O2].
    split; [|split; [|split]].
    - assert (G : grown (abs m) (abs m') (i :: s1 ++ o :: s2) ([e1; e2] ++ []) ([] ++ []) ([] ++ [f])).
      { apply (grown_trans G1 G2). intros x [<-|[<-|I]]; [left; left; auto|right; auto|left; right; apply in_app_iff; right; right; auto]. }
      exact G.
    - apply face_added_is with g1; auto.
    - assert (Hd : forall x, In x (o :: e2 :: s1) -> ~ In x (i :: e1 :: s2)).
      { intros x I J.
        assert (C : forall z, In z s1 -> In z s2 -> False).
        { intros z Z1 Z2. inversion ND; subst. apply nd_app_inv in H2 as (_ & _ & H2). apply (H2 z); auto. right; auto. }
        assert (D1 : ~ In i s1 /\ ~ In o s1 /\ ~ In o s2).
        { inversion ND; subst. split; [intros Q; apply H1, in_app_iff; auto|].
          apply nd_app_inv in H2 as (_ & H2 & H3). inversion H2; subst. split; auto.
          intros Q. apply (H3 o Q). left; auto. }
        assert (D2 : forall z, In z (i :: s1 ++ o :: s2) -> z <> e1 /\ z <> e2).
        { intros z Z. apply Hl in Z. split; congruence. }
        assert (D3 : forall z, In z s1 -> z <> e1) by (intros z Z; apply D2; right; apply in_app_iff; auto).
        assert (D4 : forall z, In z s2 -> z <> e2) by (intros z Z; apply D2; right; apply in_app_iff; right; right; auto).
        destruct (D2 i (or_introl eq_refl)), (D2 o Io).
        destruct I as [<-|[<-|I]], J as [J|[J|J]]; try congruence; try tauto; subst; try tauto;
          [destruct (D4 _ J); auto|destruct (D3 _ I); auto|destruct (C x); auto]. }
      destruct (gr_loops G2 L2 Hd) as [L3 L4]. split; auto. intros x I. rewrite (L4 x I).
      destruct I as [<-|[<-|I]].
      + rewrite <- (Hf o Io). apply (pair_old P). apply Hl; auto.
      + apply (np_face P).
      + assert (J : In x (i :: s1 ++ o :: s2)) by (right; apply in_app_iff; auto).
        rewrite <- (Hf x J). apply (pair_old P). apply Hl; auto.
    - rewrite (gr_tw G2 Q1), (gr_tw G2 Q2), (gr_og G2 Q1), (gr_og G2 Q2). repeat split; auto.
  Qed.

  Lemma do_chole c m e t a b d : wf m -> fits c m a b (S d) -> hole (abs m) (e :: t) ->
    exists m' f, close_hole c m e dF false = Ok (m', f) /\ chole dF c m e = Ok m' /\ wf m' /\ fits c m' a b d /\
      grown (abs m) (abs m') (e :: t) [] [] [f] /\ face_is (abs m') f (e :: t) dF false.
  Proof.
    intros Wm F [Hl Hf]. assert (Fi : fc (abs m) e = None) by (apply Hf; left; auto).
    assert (Le : lv (abs m) e = true) by (apply Hl; left; auto).
    destruct (t_close_hole dF false Wm F Le Fi) as (m' & f & E & F').
    destruct (spec_close_hole Wm (or_intror Fi) E) as (Wm' & _ & _ & A).
    exists m', f. unfold chole. rewrite E. cbn [bind]. do 4 (split; auto).
    split; [apply grown_face with dF false; auto|]. apply face_added_is with (abs m); auto.
  Qed.

  Lemma do_edge c m i s1 o s2 a b d : wf m -> fits c m (2 + a) b d -> hole (abs m) (i :: s1 ++ o :: s2) ->
    (forall e, leads (abs m) e (target (abs m) i) (target (abs m) o) -> False) ->
    exists m' e1 e2, insert_edge c m i dE o dE = Ok (m', e1, e2) /\ wf m' /\ fits c m' a b d /\
      grown (abs m) (abs m') (i :: s1 ++ o :: s2) [e1; e2] [] [] /\
      hole (abs m') (i :: e1 :: s2) /\ hole (abs m') (o :: e2 :: s1) /\
      tw (abs m') e1 = e2 /\ tw (abs m') e2 = e1 /\
      og (abs m') e1 = target (abs m) i /\ og (abs m') e2 = target (abs m) o.
  Proof.
    intros Wm F H N. destruct H as [Hl Hf].
    assert (Fi : fc (abs m) i = None) by (apply Hf; left; auto).
    assert (N' : forall e, lv (abs m) e = true ->
      ~ (og (abs m) e = og (abs m) (tw (abs m) i) /\ og (abs m) (tw (abs m) e) = og (abs m) (tw (abs m) o))).
    { intros e L [A B]. apply (N e). split; auto. }
    destruct (t_insert_edge dE dE Wm F Hl Fi N') as (m' & e1 & e2 & E & F').
    assert (Io : In o (i :: s1 ++ o :: s2)) by (right; apply in_app_iff; right; left; auto).
    assert (ND : NoDup (i :: s1 ++ o :: s2)) by (apply (loop_nodup Hl)).
    assert (IO : i <> o).
    { inversion ND; subst. intros ->. apply H1, in_app_iff. right; left; auto. }
    destruct (spec_insert_edge Wm (or_intror IO) Fi (Hf o Io) E) as (Wm' & _ & _ & _ & A).
    exists m', e1, e2. split; auto. split; auto. split; auto.
    destruct (ei_split A Hl) as [L1 L2]. pose proof (ei_pair A) as P.
    split; [eapply grown_edge; [left; reflexivity|exact Io|exact A]|].
    assert (K : forall x, In x (i :: s1 ++ o :: s2) \/ x = e1 \/ x = e2 -> fc (abs m') x = None).
    { intros x [J|[->| ->]]; try apply (np_face P). rewrite <- (Hf x J). apply (pair_old P). apply Hl; auto. }
    destruct (np_twin P) as [T1 T2]. destruct (np_origin P) as [O1 O2].
    split; [split; auto|].
    { intros x I. apply K. destruct I as [<-|[<-|I]]; [left; left; auto|auto|left; right; apply in_app_iff; right; right; auto]. }
    split; [split; auto|].
    { intros x I. apply K. destruct I as [<-|[<-|I]]; auto. left. right. apply in_app_iff. auto. }
    auto.
  Qed.

  (** * neighbours of a vertex *)
  Definition nbrs g v (l : list nat) : Prop := forall e, lv g e = true -> og g e = v -> In (target g e) l.

  Lemma nbrs_fresh g v : WF g -> lvv g v = false -> nbrs g v [].
  Proof. intros W F e L O. pose proof (wf_og W _ L) as Q. congruence. Qed.

  Lemma nbrs_pair g g' L e1 e2 V F v l l' : WF g -> grown g g' L [e1; e2] V F ->
    tw g' e1 = e2 -> tw g' e2 = e1 -> nbrs g v l ->
    (og g' e1 = v -> In (og g' e2) l') -> (og g' e2 = v -> In (og g' e1) l') -> (forall x, In x l -> In x l') ->
    nbrs g' v l'.
  Proof.
    intros W G T1 T2 N A B I e Le O. apply (gr_e G) in Le as [Le|[<-|[<-|[]]]].
    - rewrite (gr_target W G Le). apply I. apply N; auto. rewrite <- O. symmetry. apply (gr_og G); auto.
    - unfold target. rewrite T1. auto.
    - unfold target. rewrite T2. auto.
  Qed.

  Lemma nbrs_same g g' L V F v l : WF g -> grown g g' L [] V F -> nbrs g v l -> nbrs g' v l.
  Proof.
    intros W G N e Le O. apply (gr_e G) in Le as [Le|[]].
    rewrite (gr_target W G Le). apply N; auto. rewrite <- O. symmetry. apply (gr_og G); auto.
  Qed.

  Lemma nbrs_no g v w l : nbrs g v l -> ~ In w l -> forall e, leads g e v w -> False.
  Proof. intros N I e (A & B & C). apply I. rewrite <- C. apply N; auto. Qed.
  Lemma nbrs_no' g v w l : WF g -> nbrs g w l -> ~ In v l -> forall e, leads g e v w -> False.
  Proof.
    intros W N I e (A & B & C). apply I. rewrite <- B. rewrite <- (wf_twtw W _ A).
    apply N; auto. apply (wf_tw W); auto.
  Qed.

  Lemma fits_le c m a b d a' b' d' : wf m -> fits c m a b d -> a' <= a -> b' <= b -> d' <= d -> fits c m a' b' d'.
  Proof. intros Wm F. unfold fits in *. lia. Qed.
End Step.
