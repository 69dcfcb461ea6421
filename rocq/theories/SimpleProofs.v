(** Debug builds never create parallel edges. *)
From Coq Require Import List Arith Lia Bool.
From Verif Require Import Base DVec DVecFacts Mesh MeshMore Spec Rep Cycle Traverse Ops2 Ops4 MeshSpec MeshProofs MeshFacts MeshTotal Topo TopoSpec.
Import ListNotations.
Set Implicit Arguments.
Unset Strict Implicit.

Section Simple.
  Context {VP EP FP : Type}.
  Implicit Types (m : mesh VP EP FP) (c : cfg) (g : graph VP EP FP).
  Notation tgt g e := (og g (tw g e)).

  Lemma no_parallel_self g : WF g -> no_parallel g -> no_self_loop g.
  Proof.
    intros W NP e L E. apply (wf_twne W L). apply NP; auto; [apply W; auto|]. rewrite (wf_twtw W e L). auto.
  Qed.

  (** Edges and their ends are the same in both graphs. *)
  Lemma no_parallel_keep g g' : WF g -> (forall e, lv g' e = lv g e) ->
    (forall e, lv g e = true -> og g' e = og g e /\ tw g' e = tw g e) -> no_parallel g -> no_parallel g'.
  Proof.
    intros W L K NP e e' A B O T. rewrite L in A, B.
    destruct (K e A) as [O1 T1], (K e' B) as [O2 T2]. rewrite O1, O2 in O. rewrite T1, T2 in T.
    destruct (K _ (wf_tw W e A)) as [O3 _], (K _ (wf_tw W e' B)) as [O4 _]. rewrite O3, O4 in T. apply NP; auto.
  Qed.

  Lemma no_parallel_pair g g' e1 e2 a b y1 y2 : WF g -> no_parallel g -> a <> b ->
    (forall e, lv g e = true -> og g e = a -> tgt g e <> b) -> new_pair g g' e1 e2 a b y1 y2 -> no_parallel g'.
  Proof.
    intros W NP AB NE [[F1 [F2 N]] [L1 L2] [T1 T2] [O1 O2] _ _ OT].
    assert (K : forall e, lv g' e = true -> e = e1 \/ e = e2 \/
      (lv g e = true /\ og g' e = og g e /\ og g' (tw g' e) = tgt g e)).
    { intros e L. destruct (Nat.eq_dec e e1) as [|N1]; auto. destruct (Nat.eq_dec e e2) as [|N2]; auto.
      right; right. destruct (OT e N1 N2) as [Q K]. rewrite Q in L. destruct (K L) as (TT & OO & _).
      split; auto. split; auto. rewrite TT. pose proof (wf_tw W e L) as LT.
      destruct (OT (tw g e)) as [_ K2]; [intros X; congruence|intros X; congruence|]. apply K2; auto. }
    assert (NE' : forall e, lv g e = true -> og g e = b -> tgt g e <> a).
    { intros e L O X. apply (NE (tw g e)); auto; [apply W; auto|]. rewrite (wf_twtw W e L). auto. }
    intros e e' A B O T. destruct (K e A) as [->|[->|(C & C1 & C2)]]; destruct (K e' B) as [->|[->|(D & D1 & D2)]]; auto;
      rewrite ?C1, ?C2, ?D1, ?D2, ?T1, ?T2, ?O1, ?O2 in *; try congruence; try (apply NP; auto; fail); exfalso;
      try (eapply NE; eauto; congruence); try (eapply NE'; eauto; congruence).
  Qed.

  Lemma insert_edge_new c m i y1 o y2 m' e1 e2 : wf m -> dbg c = true -> i <> o ->
    insert_edge c m i y1 o y2 = Ok (m', e1, e2) ->
    forall e, lv (abs m) e = true -> og (abs m) e = tgt (abs m) i -> tgt (abs m) e <> tgt (abs m) o.
  Proof.
    intros Wm D N H e L O T. destruct (wf_abs Wm) as [R W].
    destruct (insert_edge_ok R W N H) as (LI & LO & _ & _ & _ & _ & X). destruct (X D) as (_ & _ & Y & _).
    rewrite (wf_ognx W i LI), (wf_ognx W o LO) in Y.
    destruct (shared_edge_spec c (tgt (abs m) o) Wm (wf_og W _ (wf_tw W i LI))) as (s & E & S).
    rewrite Y in E. injection E as <-. exact (S e L O T).
  Qed.

  Lemma bstep_simple c m o m' : wf m -> dbg c = true -> bpre (abs m) o -> joins_distinct (abs m) o ->
    no_parallel (abs m) -> bstep c m o = Ok m' -> no_parallel (abs m').
  Proof.
    intros Wm D P J NP H. destruct (wf_abs Wm) as [R W]. destruct o; cbn [bstep] in H; cbn [bpre] in P; cbn [joins_distinct] in J.
    - apply bind_ok in H as ((? & ?) & H & E). injection E as <-.
      destruct (spec_add_vertex Wm H) as (_ & _ & _ & _ & _ & _ & K & _).
      apply (@no_parallel_keep (abs m)); auto; [intros; apply K|]. intros e L. destruct (K e) as [[_ X] _]. split; apply X; auto.
    - apply bind_ok in H as (((? & ?) & ?) & H & E). injection E as <-.
      destruct (spec_add_isolated_edge Wm H) as (_ & e0 & e1 & [A B _ _ _ _ _ _]).
      destruct B as (X & X2 & X3). refine (no_parallel_pair W NP X3 _ A). intros e L O T. pose proof (wf_og W e L). congruence.
    - apply bind_ok in H as ((((? & ?) & ?) & ?) & H & E). injection E as <-.
      destruct (spec_add_vertex_via_edge Wm (or_introl D) P H) as (_ & L & [A [B _] _ _ _ _]).
      refine (no_parallel_pair W NP _ _ A).
      + intros X. pose proof (wf_og W _ (wf_tw W _ L)). congruence.
      + intros e Le O T. pose proof (wf_og W _ (wf_tw W e Le)). congruence.
    - apply bind_ok in H as ((((? & ?) & ?) & ?) & H & E). injection E as <-.
      destruct (spec_add_vertex_via_vertex Wm D H) as (_ & i & L & _ & _ & [A [B _] _ _ _ _]).
      refine (no_parallel_pair W NP _ _ A).
      + intros X. pose proof (wf_og W _ (wf_tw W _ L)). congruence.
      + intros e Le O T. pose proof (wf_og W _ (wf_tw W e Le)). congruence.
    - apply bind_ok in H as (((? & ?) & ?) & H & E). injection E as <-.
      destruct (spec_insert_edge_between Wm D P H) as (_ & (ci & co & C) & N).
      refine (no_parallel_pair W NP P _ (cn_pair C)). intros e L O T. apply (N e L). auto.
    - apply bind_ok in H as (((? & ?) & ?) & H & E). injection E as <-. destruct P as [P1 P2].
      destruct (spec_insert_edge Wm (or_introl D) P1 P2 H) as (_ & LI & LO & N & I).
      refine (no_parallel_pair W NP J _ (ei_pair I)). eapply insert_edge_new; eauto.
    - apply bind_ok in H as ((? & ?) & H & E). injection E as <-.
      destruct (spec_close_hole Wm (or_introl D) H) as (_ & _ & _ & F).
      apply (@no_parallel_keep (abs m)); auto; [intros; apply F|]. intros x L. destruct (fa_edges F x) as [_ X].
      split; apply X; auto.
    - apply bind_ok in H as ((((? & ?) & ?) & ?) & H & E). injection E as <-.
      destruct (spec_close_face Wm (or_introl D) H) as (_ & LI & LO & N & _ & _ & g1 & W1 & I & F).
      apply bind_ok in H as (((? & ?) & ?) & H & _).
      apply (@no_parallel_keep g1); auto; [intros; apply F| |].
      { intros x L. destruct (fa_edges F x) as [_ X]. split; apply X; auto. }
      refine (no_parallel_pair W NP J _ (ei_pair I)). eapply insert_edge_new; eauto.
    - apply bind_ok in H as ((((? & ?) & ?) & ?) & H & E). injection E as <-.
      destruct (close_face_vertices_ok R W H) as (i & o & LI & OI & TI & LO & TO & _ & _ & H').
      destruct (spec_close_face Wm (or_introl D) H') as (_ & _ & _ & N & _ & _ & g1 & W1 & I & F).
      apply bind_ok in H' as (((? & ?) & ?) & H' & _).
      apply (@no_parallel_keep g1); auto; [intros; apply F| |].
      { intros x L. destruct (fa_edges F x) as [_ X]. split; apply X; auto. }
      refine (no_parallel_pair W NP _ _ (ei_pair I)); [congruence|eapply insert_edge_new; eauto].
    - apply bind_ok in H as ((? & ?) & H & E). injection E as <-.
      destruct (spec_remove_face Wm H) as (_ & F & _).
      apply (@no_parallel_keep (abs m)); auto; [intros; apply F|]. intros x L. destruct (fr_edges F x) as [_ X].
      split; apply X; auto.
    - destruct (spec_flip c Wm P H) as (_ & L & RN). set (g := abs m) in *. set (t := tw g e) in *.
      assert (S : forall x, swap e t (swap e t x) = x).
      { intros x. unfold swap. destruct (x =? e) eqn:A; [|destruct (x =? t) eqn:B].
        - apply Nat.eqb_eq in A. subst x. rewrite Nat.eqb_refl. destruct (t =? e) eqn:B; auto. apply Nat.eqb_eq in B. auto.
        - apply Nat.eqb_eq in B. subst x. rewrite Nat.eqb_refl. auto.
        - rewrite A, B. auto. }
      assert (LS : forall x, lv g x = true -> lv g (swap e t x) = true).
      { intros x X. unfold swap. destruct (x =? e); [apply W; auto|]. destruct (x =? t); auto. }
      assert (ST : forall x, lv g x = true -> swap e t (tw g x) = tw g (swap e t x)).
      { intros x X. unfold swap. destruct (x =? e) eqn:A; [|destruct (x =? t) eqn:B].
        - apply Nat.eqb_eq in A. subst x. fold t. rewrite Nat.eqb_refl. assert (TT : tw g t = e) by apply (wf_twtw W e L).
          rewrite TT. destruct (t =? e) eqn:B; auto. apply Nat.eqb_eq in B. auto.
        - apply Nat.eqb_eq in B. subst x. unfold t. rewrite (wf_twtw W e L), Nat.eqb_refl. auto.
        - destruct (tw g x =? e) eqn:A'. { apply Nat.eqb_eq in A'. rewrite <- (wf_twtw W x X), A' in B. fold t in B. rewrite Nat.eqb_refl in B. discriminate. }
          destruct (tw g x =? t) eqn:B'; auto. apply Nat.eqb_eq in B'. rewrite <- (wf_twtw W x X), B' in A. unfold t in A. rewrite (wf_twtw W e L), Nat.eqb_refl in A. discriminate. }
      intros x x' A B O T. destruct (rn_edges RN x) as [Q1 K1]. destruct (rn_edges RN x') as [Q2 K2].
      rewrite Q1 in A. rewrite Q2 in B. destruct (K1 A) as (T1 & _ & O1 & _). destruct (K2 B) as (T2 & _ & O2 & _).
      rewrite T1, T2 in T. destruct (rn_edges RN (tw g x)) as [_ K3]. destruct (rn_edges RN (tw g x')) as [_ K4].
      destruct (K3 (wf_tw W x A)) as (_ & _ & O3 & _). destruct (K4 (wf_tw W x' B)) as (_ & _ & O4 & _).
      rewrite O3, O4, (ST x A), (ST x' B) in T. rewrite O1, O2 in O.
      rewrite <- (S x), <- (S x'). f_equal. apply NP; auto.
  Qed.

  Lemma brun_simple c os : forall m m', wf m -> dbg c = true -> no_parallel (abs m) -> bpre_run c m os -> joins_distinct_run c m os ->
    brun c m os = Ok m' -> no_parallel (abs m').
  Proof.
    induction os as [|o os IH]; cbn; intros m m' Wm D NP P J H.
    - injection H as <-. auto.
    - destruct P as [P1 P2], J as [J1 J2]. apply bind_ok in H as (m1 & H1 & H2).
      apply (IH m1); auto; [exact (bstep_wf Wm D P1 H1)|]. eapply bstep_simple; eauto.
  Qed.

  Lemma simply_reachable_ok m : simply_reachable m -> wf m /\ no_parallel (abs m) /\ no_self_loop (abs m).
  Proof.
    intros (c & os & D & P & J & H). assert (Wm : wf m) by (apply reachable_wf; exists c, os; auto).
    assert (NP : no_parallel (abs m)).
    { refine (brun_simple empty_wf D _ P J H). intros e e' L. cbn in L. destruct e; discriminate. }
    split; auto. split; auto. apply no_parallel_self; auto. apply Wm.
  Qed.
End Simple.
