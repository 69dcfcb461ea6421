(** The builder operations have the specified effects. *)
From Coq Require Import List Arith Lia Bool Permutation.
From Verif Require Import Base DVec DVecFacts Mesh Spec Rep Splice Cycle Traverse Room Ops Ops2 Ops3 Ops4 Flip MeshSpec.
Import ListNotations.
Set Implicit Arguments.
Unset Strict Implicit.

Lemma nd_app_inv {A} (l1 l2 : list A) : NoDup (l1 ++ l2) ->
  NoDup l1 /\ NoDup l2 /\ forall x, In x l1 -> In x l2 -> False.
Proof.
  induction l1 as [|a l1 IH]; simpl; intros D.
  - split; [constructor|]. split; auto.
  - inversion D; subst. destruct (IH H2) as (A1 & A2 & A3). rewrite in_app_iff in H1.
    split; [constructor; auto|]. split; auto. intros x [->|I] J; eauto.
Qed.
Lemma nd_app {A} (l1 l2 : list A) : NoDup l1 -> NoDup l2 -> (forall x, In x l1 -> In x l2 -> False) ->
  NoDup (l1 ++ l2).
Proof.
  induction l1 as [|a l1 IH]; simpl; intros D1 D2 J; auto.
  inversion D1; subst. constructor.
  - rewrite in_app_iff. intros [I|I]; eauto.
  - apply IH; eauto.
Qed.

Lemma graft (f f' : nat -> nat) o e s z :
  f' e = f o -> (forall y, In y s -> f' y = f y) -> chain f o s -> f (last s o) = z ->
  chain f' e s /\ f' (last s e) = z.
Proof.
  intros E S. revert o e E. induction s as [|y s IH]; intros o e E C L; simpl in C.
  - simpl in *. split; auto. congruence.
  - destruct C as [C1 C2]. rewrite last_cons in *.
    destruct (IH (fun x H => S x (or_intror H)) y y) as [A B]; auto. { apply S; left; auto. }
    split; auto. simpl. split; auto. congruence.
Qed.

Section MeshProofs.
  Context {VP EP FP : Type}.
  Notation mesh := (mesh VP EP FP).
  Notation graph := (graph VP EP FP).
  Implicit Types (g : graph) (m : mesh) (c : cfg).

  (** *** transport along [geq] *)
  Lemma loop_geq g1 g2 l : geq g1 g2 -> loop g1 l -> loop g2 l.
  Proof.
    intros Q [L C]. split.
    - intros x H. rewrite <- (q_lv Q). auto.
    - eapply cycle_ext; [|exact C]. intros x H. apply Q; auto.
  Qed.
  Lemma keep_label_geq g g1 g2 e : geq g1 g2 -> keep_label g g1 e -> keep_label g g2 e.
  Proof.
    intros Q [L H]. rewrite (q_lv Q) in L. split; auto. intros X. specialize (H X).
    rewrite <- (q_tw Q), <- (q_og Q), <- (q_fc Q), <- (q_ep Q) by (rewrite (q_lv Q); congruence). auto.
  Qed.
  Lemma keep_vertex_geq g g1 g2 e : geq g1 g2 -> keep_vertex g g1 e -> keep_vertex g g2 e.
  Proof.
    intros Q [L H]. rewrite (q_lvv Q) in L. split; auto. intros X. specialize (H X).
    rewrite <- (q_ve Q), <- (q_vp Q) by (rewrite (q_lvv Q); congruence). auto.
  Qed.
  Lemma keep_face_geq g g1 g2 e : geq g1 g2 -> keep_face g g1 e -> keep_face g g2 e.
  Proof.
    intros Q [L H]. rewrite (q_lvf Q) in L. split; auto. intros X. specialize (H X).
    rewrite <- (q_fe Q), <- (q_fp Q) by (rewrite (q_lvf Q); congruence). auto.
  Qed.
  Lemma new_pair_geq g g1 g2 e1 e2 a b y1 y2 : geq g1 g2 -> new_pair g g1 e1 e2 a b y1 y2 ->
    new_pair g g2 e1 e2 a b y1 y2.
  Proof.
    intros Q [A [L1 L2] T O F P K]. split; auto.
    - rewrite <- !(q_lv Q); auto.
    - rewrite <- !(q_tw Q); auto.
    - rewrite <- !(q_og Q); auto.
    - rewrite <- !(q_fc Q); auto.
    - rewrite <- !(q_ep Q); auto.
    - intros. eapply keep_label_geq; eauto.
  Qed.
  Hint Resolve loop_geq keep_label_geq keep_vertex_geq keep_face_geq new_pair_geq : geq.
  Lemma vertex_added_geq g g1 g2 i v e1 e2 y y1 y2 : geq g1 g2 ->
    vertex_added g g1 i v e1 e2 y y1 y2 -> vertex_added g g2 i v e1 e2 y y1 y2.
  Proof.
    intros Q [P (V1 & V2 & V3 & V4) K1 K2 L1 L2]. split; eauto with geq.
    rewrite <- (q_lvv Q), <- (q_ve Q), <- (q_vp Q); auto.
  Qed.
  Lemma edge_inserted_geq g g1 g2 i o e1 e2 y1 y2 : geq g1 g2 ->
    edge_inserted g g1 i o e1 e2 y1 y2 -> edge_inserted g g2 i o e1 e2 y1 y2.
  Proof.
    intros Q [P K1 K2 L1 L2 L3]. split; eauto with geq.
    intros s1 s2 H. destruct (L1 _ _ H). eauto with geq.
  Qed.
  Lemma face_added_geq g g1 g2 e f y cu : geq g1 g2 -> lv g e = true ->
    face_added g g1 e f y cu -> face_added g g2 e f y cu.
  Proof.
    intros Q LE [A (B1 & B2 & B3) L1 L2 L3 E V F].
    assert (LL : forall x, lv g x = true -> lv g1 x = true) by (intros x H; destruct (E x); congruence).
    split; auto.
    - rewrite <- (q_lvf Q), <- (q_fe Q), <- (q_fp Q); auto.
    - intros t x H I. rewrite <- (q_fc Q); eauto. apply LL. apply H; auto.
    - intros x H. rewrite <- (q_fc Q); eauto.
    - intros t x H X I. rewrite <- (q_fc Q); eauto.
    - intros x. destruct (E x) as [E1 E2]. rewrite <- (q_lv Q). split; auto. intros H. specialize (E2 H).
      rewrite <- (q_nx Q), <- (q_pv Q), <- (q_tw Q), <- (q_og Q), <- (q_ep Q) by auto. auto.
    - eauto with geq.
    - eauto with geq.
  Qed.
  Lemma face_removed_geq g g1 g2 f : geq g1 g2 -> face_removed g g1 f -> face_removed g g2 f.
  Proof.
    intros Q [A L1 E V F].
    assert (LL : forall x, lv g x = true -> lv g1 x = true) by (intros x H; destruct (E x); congruence).
    split; auto.
    - rewrite <- (q_lvf Q); auto.
    - intros x H. rewrite <- (q_fc Q); eauto.
    - intros x. destruct (E x) as [E1 E2]. rewrite <- (q_lv Q). split; auto. intros H. specialize (E2 H).
      rewrite <- (q_nx Q), <- (q_pv Q), <- (q_tw Q), <- (q_og Q), <- (q_ep Q) by auto. auto.
    - eauto with geq.
    - eauto with geq.
  Qed.
  Lemma isolated_added_geq g g1 g2 v0 v1 e0 e1 ya y0 yb y1 : geq g1 g2 ->
    isolated_added g g1 v0 v1 e0 e1 ya y0 yb y1 -> isolated_added g g2 v0 v1 e0 e1 ya y0 yb y1.
  Proof.
    intros Q [P F (V1 & V2 & V3) (W1 & W2 & W3) K1 K2 L LL]. split; eauto with geq.
    - rewrite <- (q_lvv Q), <- (q_ve Q), <- (q_vp Q); auto.
    - rewrite <- (q_lvv Q), <- (q_ve Q), <- (q_vp Q); auto.
  Qed.
  Lemma connected_geq g g1 g2 v w ci co e0 e1 y0 y1 : geq g1 g2 ->
    connected g g1 v w ci co e0 e1 y0 y1 -> connected g g2 v w ci co e0 e1 y0 y1.
  Proof.
    intros Q [P F V Y [V1 V2] [W1 W2] C1 C2 L LL].
    assert (X : forall u, lvv g u = true -> lvv g1 u = true) by (intros u H; destruct (Y u); congruence).
    split; eauto with geq.
    - intros u. destruct (Y u) as [Y1 Y2]. rewrite <- (q_lvv Q). split; auto.
      intros H. rewrite <- (q_vp Q); auto.
    - split; auto. rewrite <- (q_ve Q); auto.
    - split; auto. rewrite <- (q_ve Q); auto.
    - destruct ci as [i|], co as [o|]; eauto with geq.
      destruct L as (A & B & C). split; auto. split; eauto with geq.
      intros s1 s2 H. destruct (B _ _ H). eauto with geq.
  Qed.
  Lemma renamed_geq s g g1 g2 : geq g1 g2 -> renamed s g g1 -> renamed s g g2.
  Proof.
    intros Q [E K L V F]. split; eauto with geq.
    - intros x. destruct (E x) as [E1 E2]. rewrite <- (q_lv Q). split; auto. intros H.
      rewrite <- (q_tw Q), <- (q_og Q), <- (q_fc Q), <- (q_ep Q) by congruence. auto.
    - intros x LX. destruct (E x) as [E1 _]. rewrite <- (q_nx Q), <- (q_pv Q) by congruence. auto.
    - intros u. destruct (V u) as [Y1 Y2]. rewrite <- (q_lvv Q). split; auto.
      intros H. rewrite <- (q_vp Q); auto. congruence.
    - intros u. destruct (F u) as [Y1 Y2]. rewrite <- (q_lvf Q). split; auto.
      intros H. rewrite <- (q_fp Q); auto. congruence.
  Qed.

  (** *** splicing *)
  Lemma splice_pair g0 g e1 e2 a b ca cb y1 y2 :
    lv g = lv g0 -> tw g = tw g0 -> og g = og g0 -> fc g = fc g0 -> ep g = ep g0 ->
    lv g e1 = false -> lv g e2 = false -> e1 <> e2 ->
    new_pair g0 (splice e1 e2 a b ca cb y1 y2 g) e1 e2 a b y1 y2.
  Proof.
    intros Q1 Q2 Q3 Q4 Q5 F1 F2 N. apply Nat.eqb_neq in N as N1. apply not_eq_sym in N as N'. apply Nat.eqb_neq in N' as N2.
    split; cbn -[Nat.eqb]; unfold fu; rewrite ?Nat.eqb_refl, ?N1, ?N2; auto.
    - rewrite <- Q1. auto.
    - intros e A B. split; cbn -[Nat.eqb]; unfold fu; apply Nat.eqb_neq in A, B; rewrite A, B.
      + congruence.
      + rewrite Q2, Q3, Q4, Q5. auto.
  Qed.

  Section Loops.
    Variables (g : graph) (e1 e2 a b : nat) (y1 y2 : EP).
    Hypothesis F1 : lv g e1 = false.
    Hypothesis F2 : lv g e2 = false.
    Hypothesis N : e1 <> e2.

    Lemma live_ne' l x : (forall x, In x l -> lv g x = true) -> In x l -> x <> e1 /\ x <> e2.
    Proof. intros L I. specialize (L _ I). split; congruence. Qed.

    Lemma nd1 l x y : NoDup l -> (forall x, In x l -> lv g x = true) -> x <> y -> lv g x = false -> lv g y = false ->
      NoDup (x :: y :: l).
    Proof.
      intros D L XY X Y. constructor; [|constructor]; auto.
      - simpl. intros [->|I]; auto. specialize (L _ I). congruence.
      - intros I. specialize (L _ I). congruence.
    Qed.

    Let sp ca cb := splice e1 e2 a b ca cb y1 y2 g.

    Lemma sp_live ca cb x : lv g x = true -> lv (sp ca cb) x = true.
    Proof. intros. cbn -[Nat.eqb]. unfold fu. destruct (x =? e2); auto. destruct (x =? e1); auto. Qed.
    Lemma sp_live1 ca cb : lv (sp ca cb) e1 = true.
    Proof. cbn -[Nat.eqb]. unfold fu. rewrite Nat.eqb_refl. destruct (e1 =? e2); auto. Qed.
    Lemma sp_live2 ca cb : lv (sp ca cb) e2 = true.
    Proof. cbn -[Nat.eqb]. unfold fu. rewrite Nat.eqb_refl. auto. Qed.
    Lemma sp_nx1 ca cb : nx (sp ca cb) e1 = cout cb e2.
    Proof. cbn -[Nat.eqb]. rewrite Nat.eqb_refl. auto. Qed.
    Lemma sp_nx2 ca cb : nx (sp ca cb) e2 = cout ca e1.
    Proof. cbn -[Nat.eqb]. rewrite Nat.eqb_refl. destruct (Nat.eqb_spec e2 e1); auto. congruence. Qed.
    Lemma sp_nx ca cb x : lv g x = true ->
      nx (sp ca cb) x = if at_in ca x then e1 else if at_in cb x then e2 else nx g x.
    Proof. intros L. cbn -[Nat.eqb]. destruct (Nat.eqb_spec x e1); [congruence|]. destruct (Nat.eqb_spec x e2); [congruence|]. auto. Qed.

    Lemma sp_other ca cb l : loop g l -> (forall x, In x l -> at_in ca x = false /\ at_in cb x = false) ->
      loop (sp ca cb) l.
    Proof.
      intros [L C] H. split; [intros; apply sp_live; auto|]. eapply cycle_ext; [|exact C].
      intros x I. rewrite sp_nx by auto. destruct (H _ I) as [-> ->]. auto.
    Qed.

    Lemma at_in_ne i o x : x <> i -> at_in (Some (i, o)) x = false.
    Proof. intros H. cbn. apply Nat.eqb_neq; auto. Qed.
    Lemma at_in_eq i o : at_in (Some (i, o)) i = true.
    Proof. cbn. apply Nat.eqb_refl. Qed.

    (** hanging a new end vertex on a corner *)
    Lemma sp_hang1 i t : loop g (i :: t) -> loop (sp (Some (i, nx g i)) None) (i :: e1 :: e2 :: t).
    Proof.
      intros [L C]. apply is_cycle_cons in C as (D & C & Z).
      split.
      - intros x [<-|[<-|[<-|I]]]; auto using sp_live1, sp_live2. { apply sp_live, L; left; auto. } apply sp_live, L; right; auto.
      - apply is_cycle_cons. split; [|split].
        + pose proof (nd1 D L N F1 F2) as H. inversion H as [|? ? H1 H2]; subst. inversion H2 as [|? ? H3 H4]; subst.
          inversion D; subst. simpl in *. constructor; [|constructor; [|constructor]]; auto; simpl; intuition.
        + cbn [chain]. rewrite sp_nx, at_in_eq by (apply L; left; auto). split; auto. rewrite sp_nx1. split; auto.
          refine (proj1 (@graft (nx g) _ i e2 t i _ _ C Z)).
          * rewrite sp_nx2. reflexivity.
          * intros y I. rewrite sp_nx by (apply L; right; auto). rewrite at_in_ne; auto.
            intros ->. inversion D; auto.
        + rewrite !last_cons. refine (proj2 (@graft (nx g) _ i e2 t i _ _ C Z)).
          * rewrite sp_nx2. reflexivity.
          * intros y I. rewrite sp_nx by (apply L; right; auto). rewrite at_in_ne; auto.
            intros ->. inversion D; auto.
    Qed.

    Lemma sp_hang2 o t : loop g (o :: t) -> loop (sp None (Some (o, nx g o))) (o :: e2 :: e1 :: t).
    Proof.
      intros [L C]. apply is_cycle_cons in C as (D & C & Z).
      split.
      - intros x [<-|[<-|[<-|I]]]; auto using sp_live1, sp_live2. { apply sp_live, L; left; auto. } apply sp_live, L; right; auto.
      - assert (G : chain (nx (sp None (Some (o, nx g o)))) e1 t /\ nx (sp None (Some (o, nx g o))) (last t e1) = o).
        { apply (@graft (nx g) _ o e1 t o); auto.
          - rewrite sp_nx1. reflexivity.
          - intros y I. rewrite sp_nx by (apply L; right; auto). rewrite at_in_ne; auto.
            intros ->. inversion D; auto. }
        apply is_cycle_cons. split; [|split].
        + pose proof (nd1 D L N F1 F2) as H. inversion H as [|? ? H1 H2]; subst. inversion H2 as [|? ? H3 H4]; subst.
          inversion D; subst. simpl in *. constructor; [|constructor; [|constructor]]; auto; simpl; intuition.
        + cbn [chain]. rewrite sp_nx, at_in_eq by (apply L; left; auto). split; [reflexivity|]. rewrite sp_nx2. split; auto. apply G.
        + rewrite !last_cons. apply G.
    Qed.

    Lemma sp_new : loop (sp None None) [e1; e2].
    Proof.
      split.
      - intros x [<-|[<-|[]]]; auto using sp_live1, sp_live2.
      - apply is_cycle_cons. split; [|split].
        + repeat constructor; simpl; intuition.
        + cbn [chain]. rewrite sp_nx1. auto.
        + cbn [chain]. rewrite sp_nx2. auto.
    Qed.

    Lemma sp_split i o s1 s2 : loop g (i :: s1 ++ o :: s2) ->
      loop (sp (Some (i, nx g i)) (Some (o, nx g o))) (i :: e1 :: s2) /\
      loop (sp (Some (i, nx g i)) (Some (o, nx g o))) (o :: e2 :: s1).
    Proof.
      intros [L C]. apply is_cycle_cons in C as (D & C & Z).
      apply chain_app in C as (C1 & C2 & C3). rewrite last_app in Z.
      set (s := sp (Some (i, nx g i)) (Some (o, nx g o))).
      assert (LI : lv g i = true) by (apply L; left; auto).
      assert (LO : lv g o = true) by (apply L; right; apply in_or_app; right; left; auto).
      assert (L1 : forall y, In y s1 -> lv g y = true) by (intros; apply L; right; apply in_or_app; auto).
      assert (L2 : forall y, In y s2 -> lv g y = true) by (intros; apply L; right; apply in_or_app; right; right; auto).
      assert (NI : ~ In i (s1 ++ o :: s2)) by (inversion D; auto).
      assert (D' : NoDup (s1 ++ o :: s2)) by (inversion D; auto).
      assert (NO : ~ In o (s1 ++ s2)) by (apply NoDup_remove in D'; intuition).
      assert (IO : i <> o) by (intros ->; apply NI, in_or_app; right; left; auto).
      assert (S1 : forall y, In y s1 -> nx s y = nx g y).
      { intros y I. unfold s. rewrite sp_nx by auto. rewrite !at_in_ne; auto; intros ->; intuition. }
      assert (S2 : forall y, In y s2 -> nx s y = nx g y).
      { intros y I. unfold s. rewrite sp_nx by auto. rewrite !at_in_ne; auto; intros ->; [apply NO|apply NI]; apply in_or_app; simpl; auto. }
      assert (XI : nx s i = e1) by (unfold s; rewrite sp_nx, at_in_eq by auto; auto).
      assert (XO : nx s o = e2) by (unfold s; rewrite sp_nx, at_in_ne, at_in_eq by auto; auto).
      destruct (@graft (nx g) (nx s) o e1 s2 i) as [G1 G2]; auto. { unfold s; rewrite sp_nx1; auto. }
      destruct (@graft (nx g) (nx s) i e2 s1 o) as [G3 G4]; auto. { unfold s; rewrite sp_nx2; auto. }
      pose proof (NoDup_remove_1 _ _ _ D') as DD.
      assert (D1 : NoDup s1) by apply (nd_app_inv DD).
      assert (D2 : NoDup s2) by apply (nd_app_inv DD).
      split; split.
      - intros x [<-|[<-|I]]; [apply sp_live; auto|apply sp_live1|apply sp_live; auto].
      - apply is_cycle_cons. split; [|split].
        + constructor; [|constructor]; auto.
          * intros [->|I]; [congruence|]. apply NI, in_or_app; simpl; auto.
          * intros I. specialize (L2 _ I). congruence.
        + cbn [chain]. auto.
        + rewrite last_cons. auto.
      - intros x [<-|[<-|I]]; [apply sp_live; auto|apply sp_live2|apply sp_live; auto].
      - apply is_cycle_cons. split; [|split].
        + constructor; [|constructor]; auto.
          * intros [->|I]; [congruence|]. apply NO, in_or_app; simpl; auto.
          * intros I. specialize (L1 _ I). congruence.
        + cbn [chain]. auto.
        + rewrite last_cons. auto.
    Qed.

    Lemma loops_disjoint i s1 o s2 : loop g (i :: s1) -> loop g (o :: s2) -> ~ In o (i :: s1) ->
      forall x, In x (i :: s1) -> In x (o :: s2) -> False.
    Proof.
      intros [_ A] [_ B] NI x X Y. apply NI. apply (cycle_same A B X Y). left; auto.
    Qed.

    Lemma sp_join i o s1 s2 : loop g (i :: s1) -> loop g (o :: s2) -> ~ In o (i :: s1) ->
      loop (sp (Some (i, nx g i)) (Some (o, nx g o))) (i :: e1 :: s2 ++ o :: e2 :: s1).
    Proof.
      intros A B NI. pose proof (loops_disjoint A B NI) as DJ.
      destruct A as [L1 C]. apply is_cycle_cons in C as (D1 & C1 & Z1).
      destruct B as [L2 C]. apply is_cycle_cons in C as (D2 & C2 & Z2).
      set (s := sp (Some (i, nx g i)) (Some (o, nx g o))).
      assert (LI : lv g i = true) by (apply L1; left; auto).
      assert (LO : lv g o = true) by (apply L2; left; auto).
      assert (IO : i <> o) by (intros ->; apply NI; left; auto).
      assert (S1 : forall y, In y s1 -> nx s y = nx g y).
      { intros y I. unfold s. rewrite sp_nx by (apply L1; right; auto). rewrite !at_in_ne; auto; intros ->.
        - apply (DJ o); simpl; auto. - inversion D1; auto. }
      assert (S2 : forall y, In y s2 -> nx s y = nx g y).
      { intros y I. unfold s. rewrite sp_nx by (apply L2; right; auto). rewrite !at_in_ne; auto; intros ->.
        - inversion D2; auto. - apply (DJ i); simpl; auto. }
      assert (XI : nx s i = e1) by (unfold s; rewrite sp_nx, at_in_eq by auto; auto).
      assert (XO : nx s o = e2) by (unfold s; rewrite sp_nx, at_in_ne, at_in_eq by auto; auto).
      destruct (@graft (nx g) (nx s) o e1 s2 o) as [G1 G2]; auto. { unfold s; rewrite sp_nx1; auto. }
      destruct (@graft (nx g) (nx s) i e2 s1 i) as [G3 G4]; auto. { unfold s; rewrite sp_nx2; auto. }
      split.
      - intros x [<-|[<-|I]]; [apply sp_live; auto|apply sp_live1|].
        apply in_app_or in I as [I|[<-|[<-|I]]]; [apply sp_live, L2; simpl; auto|apply sp_live; auto|apply sp_live2|apply sp_live, L1; simpl; auto].
      - apply is_cycle_cons. split; [|split].
        + assert (P : NoDup (e1 :: e2 :: (i :: s1) ++ (o :: s2))).
          { apply nd1; auto.
            - apply nd_app; auto.
            - intros x I. apply in_app_or in I as [I|I]; auto. }
          eapply Permutation_NoDup; [|exact P].
          apply Permutation_trans with (i :: e1 :: e2 :: s1 ++ o :: s2).
          { simpl. eapply Permutation_trans; [apply perm_skip, perm_swap|]. apply perm_swap. }
          do 2 apply perm_skip.
          apply Permutation_trans with ((e2 :: s1) ++ (o :: s2)); [auto|].
          apply Permutation_trans with ((o :: s2) ++ (e2 :: s1)); [apply Permutation_app_comm|].
          simpl. apply Permutation_cons_app. auto.
        + cbn [chain]. split; auto. apply chain_app. split; auto. split; auto. cbn [chain]. auto.
        + rewrite last_cons, last_app, last_cons. auto.
    Qed.
  End Loops.

  (** *** operations *)
  Lemma wf_abs m : wf m -> rep m [] [] [] (abs m) /\ WF (abs m).
  Proof. intros (A & B & C & W). split; auto. apply rep_abs; auto. Qed.
  Lemma rep_wf m g : rep m [] [] [] g -> WF g -> wf m /\ geq g (abs m).
  Proof.
    intros R W. split; [apply wf_rep; eauto|]. eapply rep_geq; eauto. apply rep_abs; apply R.
  Qed.
  Lemma fits_room c m a b d : wf m -> (fits c m a b d <-> room c m a b d).
  Proof.
    intros (A & B & C & _). unfold fits, room, d_cap.
    split; intros ([E1 E2] & [V1 V2] & [F1 F2]).
    - split; [|split]; apply spare_len; auto.
    - repeat split; auto; apply spare_len; auto; split; auto.
  Qed.

  Lemma spec_add_vertex c m y m' v : wf m -> add_vertex c m y = Ok (m', v) ->
    wf m' /\ lvv (abs m) v = false /\ lvv (abs m') v = true /\ ve (abs m') v = None /\
    vp (abs m') v = Some y /\ (forall w, w <> v -> keep_vertex (abs m) (abs m') w) /\
    (forall e, keep_label (abs m) (abs m') e /\ keep_links (abs m) (abs m') e) /\
    (forall f, keep_face (abs m) (abs m') f) /\ (forall l, loop (abs m) l -> loop (abs m') l).
  Proof.
    intros Wm H. destruct (wf_abs Wm) as [R W]. destruct (add_vertex_ok R H) as [F R'].
    destruct (rep_wf R' (gw_vertex_WF y W F)) as [W' Q]. set (g' := gw_vertex v None y (abs m)) in *.
    assert (LV : lvv g' v = true) by (cbn -[Nat.eqb]; unfold fu; rewrite Nat.eqb_refl; auto).
    split; auto. split; auto. rewrite <- (q_lvv Q), <- (q_ve Q), <- (q_vp Q) by auto.
    split; auto. split; [cbn -[Nat.eqb]; unfold fu; rewrite Nat.eqb_refl; auto|].
    split; [cbn -[Nat.eqb]; unfold fu; rewrite Nat.eqb_refl; auto|].
    split; [|split; [|split]].
    - intros w N. eapply keep_vertex_geq; [exact Q|]. apply Nat.eqb_neq in N.
      split; [|intros _]; cbn -[Nat.eqb abs]; unfold fu; rewrite N; auto.
    - intros e. split; [eapply keep_label_geq; [exact Q|]; split; auto|].
      intros L. rewrite <- (q_nx Q), <- (q_pv Q) by auto. auto.
    - intros f. eapply keep_face_geq; [exact Q|]; split; auto.
    - intros l H1. eapply loop_geq; [exact Q|]. exact H1.
  Qed.

  Lemma va_splice g input v e1 e2 y y1 y2 : WF g -> lv g input = true ->
    lvv g v = false -> lv g e1 = false -> lv g e2 = false -> e1 <> e2 ->
    vertex_added g (splice e1 e2 (og g (nx g input)) v (Some (input, nx g input)) None y1 y2 (gw_vertex v None y g))
      input v e1 e2 y y1 y2.
  Proof.
    intros W L V F1 F2 N. split.
    - rewrite <- (wf_ognx W _ L). apply splice_pair; auto.
    - split; auto. assert (OV : og g (nx g input) <> v).
      { intros X. assert (lvv g v = true) by (rewrite <- X; apply W; apply W; auto). congruence. }
      cbn -[Nat.eqb]. unfold fu. rewrite Nat.eqb_refl. split; auto. split; auto.
      destruct (Nat.eqb_spec v (og g (nx g input))); auto; congruence.
    - intros w X. apply Nat.eqb_neq in X. split; cbn -[Nat.eqb]; unfold fu; rewrite X; auto.
      intros _. rewrite andb_false_r. auto.
    - split; auto.
    - intros t H. apply (@sp_hang1 (gw_vertex v None y g) e1 e2); auto.
    - intros l H I. apply sp_other; auto. intros x X. split; auto. apply at_in_ne. intros ->; auto.
  Qed.

  Lemma spec_add_vertex_via_edge c m input output y y1 y2 m' v e1 e2 : wf m ->
    (dbg c = true \/ lv (abs m) input = true) ->
    (lv (abs m) input = true -> nx (abs m) input = output /\ fc (abs m) input = None) ->
    add_vertex_via_edge c m input output y y1 y2 = Ok (m', v, e1, e2) ->
    wf m' /\ lv (abs m) input = true /\ vertex_added (abs m) (abs m') input v e1 e2 y y1 y2.
  Proof.
    intros Wm D P H. destruct (wf_abs Wm) as [R W].
    destruct (add_vertex_via_edge_ok R D H) as (LO & L & _ & V & F1 & F2 & N & R').
    destruct (P L) as [E FN]. clear P. subst output.
    pose proof (@add_vertex_splice_WF _ _ _ (abs m) input _ v e1 e2 y y1 y2 W L eq_refl FN V F1 F2 N) as W'.
    destruct (rep_wf R' W') as [Wm' Q]. split; auto. split; auto.
    eapply vertex_added_geq; [exact Q|]. apply va_splice; auto.
  Qed.

  Lemma spec_add_vertex_via_vertex c m v y y1 y2 m' w e1 e2 : wf m -> dbg c = true ->
    add_vertex_via_vertex c m v y y1 y2 = Ok (m', w, e1, e2) ->
    wf m' /\ exists input, lv (abs m) input = true /\ og (abs m) (tw (abs m) input) = v /\
      fc (abs m) input = None /\ vertex_added (abs m) (abs m') input w e1 e2 y y1 y2.
  Proof.
    intros Wm D H. destruct (wf_abs Wm) as [R W].
    destruct (add_vertex_via_vertex_ok R W H) as (LV & i & L & O & F & V & F1 & F2 & N & R').
    specialize (F D). assert (O' : og (abs m) (nx (abs m) i) = v) by (rewrite (wf_ognx W); auto).
    rewrite <- O' in R'.
    pose proof (@add_vertex_splice_WF _ _ _ (abs m) i _ w e1 e2 y y1 y2 W L eq_refl F V F1 F2 N) as W'.
    destruct (rep_wf R' W') as [Wm' Q]. split; auto. exists i. do 3 (split; [assumption|]).
    eapply vertex_added_geq; [exact Q|]. apply va_splice; auto.
  Qed.

  Lemma spec_add_isolated_edge c m ya y0 yb y1 m' v0 v1 : wf m ->
    add_isolated_edge c m ya y0 yb y1 = Ok (m', v0, v1) ->
    wf m' /\ exists e0 e1, isolated_added (abs m) (abs m') v0 v1 e0 e1 ya y0 yb y1.
  Proof.
    intros Wm H. destruct (wf_abs Wm) as [R W].
    destruct (add_isolated_edge_ok R H) as (V0 & V1 & VN & e0 & e1 & F0 & F1 & N & R').
    destruct (rep_wf R' (isolated_splice_WF ya yb y0 y1 W V0 V1 VN F0 F1 N)) as [Wm' Q].
    split; auto. exists e0, e1. eapply isolated_added_geq; [exact Q|].
    apply Nat.eqb_neq in VN as N1. apply not_eq_sym in VN as VN'. apply Nat.eqb_neq in VN' as N2.
    split; auto.
    - apply splice_pair; auto.
    - cbn -[Nat.eqb abs]; unfold fu; rewrite ?Nat.eqb_refl, ?N1, ?N2. auto.
    - cbn -[Nat.eqb abs]; unfold fu; rewrite ?Nat.eqb_refl, ?N1, ?N2. auto.
    - intros w A B. apply Nat.eqb_neq in A, B. split; [|intros _]; cbn -[Nat.eqb abs]; unfold fu; rewrite A, B; auto.
    - split; auto.
    - apply sp_new; auto.
    - intros l L. apply sp_other; auto.
  Qed.

  Lemma ei_splice g i o e1 e2 y1 y2 : WF g -> lv g i = true -> lv g o = true -> i <> o ->
    lv g e1 = false -> lv g e2 = false -> e1 <> e2 ->
    edge_inserted g (ins_edge i o e1 e2 y1 y2 g) i o e1 e2 y1 y2.
  Proof.
    intros W LI LO IO F1 F2 N. unfold ins_edge. split.
    - rewrite <- (wf_ognx W _ LI), <- (wf_ognx W _ LO). apply splice_pair; auto.
    - intros v. split; auto. intros _. cbn -[Nat.eqb]. rewrite !andb_false_r. auto.
    - split; auto.
    - intros. apply sp_split; auto.
    - intros. apply sp_join; auto.
    - intros l L NI NO. apply sp_other; auto. intros x I. split; apply at_in_ne; intros ->; auto.
  Qed.

  Lemma spec_insert_edge c m i y1 o y2 m' e1 e2 : wf m ->
    (dbg c = true \/ i <> o) -> fc (abs m) i = None -> fc (abs m) o = None ->
    insert_edge c m i y1 o y2 = Ok (m', e1, e2) ->
    wf m' /\ lv (abs m) i = true /\ lv (abs m) o = true /\ i <> o /\
    edge_inserted (abs m) (abs m') i o e1 e2 y1 y2.
  Proof.
    intros Wm D FI FO H. destruct (wf_abs Wm) as [R W].
    assert (IO : i <> o) by (destruct D; auto; eapply insert_edge_ne; eauto).
    destruct (insert_edge_ok R W IO H) as (LI & LO & F1 & F2 & N & R' & _).
    destruct (rep_wf R' (ins_edge_WF y1 y2 W LI LO IO FI FO F1 F2 N)) as [Wm' Q].
    split; auto. do 3 (split; [assumption|]). eapply edge_inserted_geq; [exact Q|]. apply ei_splice; auto.
  Qed.

  Lemma spec_insert_edge_no_check c m i y1 o y2 m' e1 e2 : wf m ->
    i <> o -> fc (abs m) i = None -> fc (abs m) o = None ->
    insert_edge_no_check c m i y1 o y2 = Ok (m', e1, e2) ->
    wf m' /\ lv (abs m) i = true /\ lv (abs m) o = true /\
    edge_inserted (abs m) (abs m') i o e1 e2 y1 y2.
  Proof.
    intros Wm IO FI FO H. destruct (wf_abs Wm) as [R W].
    destruct (insert_edge_no_check_ok R W IO H) as (LI & LO & F1 & F2 & N & R').
    destruct (rep_wf R' (ins_edge_WF y1 y2 W LI LO IO FI FO F1 F2 N)) as [Wm' Q].
    split; auto. do 2 (split; [assumption|]). eapply edge_inserted_geq; [exact Q|]. apply ei_splice; auto.
  Qed.

  Lemma cycle_set g e t t' : is_cycle (nx g) (e :: t) -> is_cycle (nx g) (e :: t') ->
    forall x, In x (e :: t) <-> In x (e :: t').
  Proof. intros A B. apply (cycle_same A B (x := e)); left; auto. Qed.

  Lemma fa_add g e f y cu t : WF g -> lv g e = true -> lvf g f = false -> is_cycle (nx g) (e :: t) ->
    face_added g (add_face f e (cu, y) (e :: t) g) e f y cu.
  Proof.
    intros W L F C. split; auto.
    - cbn -[Nat.eqb mem]. unfold fu. rewrite Nat.eqb_refl. auto.
    - intros t' x [_ C'] I. cbn -[mem]. apply (cycle_set C' C) in I. apply mem_in in I. rewrite I. auto.
    - intros x LX H t' [_ C']. cbn -[mem] in H. destruct (mem x (e :: t)) eqn:M.
      + apply mem_in in M. apply (cycle_set C C'). auto.
      + exfalso. destruct (wf_fc W _ LX H). congruence.
    - intros t' x [_ C'] LX I. cbn -[mem]. destruct (mem x (e :: t)) eqn:M; auto.
      exfalso. apply I. apply (cycle_set C C'). apply mem_in. auto.
    - intros x. cbn -[mem]. repeat split; auto.
    - split; auto.
    - intros f' N. apply Nat.eqb_neq in N. split; cbn -[Nat.eqb mem]; unfold fu; rewrite N; auto.
  Qed.

  Lemma spec_close_hole c m e y cu m' f : wf m -> (dbg c = true \/ fc (abs m) e = None) ->
    close_hole c m e y cu = Ok (m', f) ->
    wf m' /\ lv (abs m) e = true /\ fc (abs m) e = None /\ face_added (abs m) (abs m') e f y cu.
  Proof.
    intros Wm D H. destruct (wf_abs Wm) as [R W].
    assert (LE : lv (abs m) e = true).
    { unfold close_hole in H. apply bind_ok in H as ((m1 & f1) & H1 & H). apply bind_ok in H as (x & H2 & _).
      unfold push_face in H1. unfold assert in H1. destruct (negb _); [|discriminate].
      apply bind_ok in H1 as ((d & i) & H3 & H1). injection H1 as <- <-. cbn.
      unfold m_edge, d_get in H2. cbn in H2. unfold d_has. destruct (nth_error _ e) as [[[]|]|]; try discriminate; auto. }
    destruct (loop_exists R W LE) as [t C].
    destruct (close_hole_ok R W C H) as (_ & F & DB & R').
    assert (FN : fc (abs m) e = None) by (destruct D; auto).
    destruct (rep_wf R' (add_face_WF (cu, y) W C LE FN F)) as [Wm' Q].
    split; auto. split; auto. split; auto. eapply face_added_geq; [exact Q|exact LE|]. apply fa_add; auto.
  Qed.

  Lemma spec_close_face c m i y1 o y2 y cu m' f e1 e2 : wf m ->
    (dbg c = true \/ (i <> o /\ fc (abs m) i = None /\ fc (abs m) o = None)) ->
    close_face c m i y1 o y2 y cu = Ok (m', f, e1, e2) ->
    wf m' /\ lv (abs m) i = true /\ lv (abs m) o = true /\ i <> o /\
    fc (abs m) i = None /\ fc (abs m) o = None /\
    exists g1, WF g1 /\ edge_inserted (abs m) g1 i o e1 e2 y1 y2 /\ face_added g1 (abs m') i f y cu.
  Proof.
    intros Wm D H. destruct (wf_abs Wm) as [R W].
    destruct (close_face_ok R W D H) as (LI & LO & IO & FI & FO & F1 & F2 & N & F & (t & C & R' & W') & _).
    destruct (rep_wf R' W') as [Wm' Q]. split; auto. do 5 (split; [assumption|]).
    exists (ins_edge i o e1 e2 y1 y2 (abs m)).
    assert (W1 : WF (ins_edge i o e1 e2 y1 y2 (abs m))) by (apply ins_edge_WF; auto).
    split; auto. split; [apply ei_splice; auto|].
    assert (LI' : lv (ins_edge i o e1 e2 y1 y2 (abs m)) i = true) by (apply sp_live; auto).
    eapply face_added_geq; [exact Q|exact LI'|]. apply fa_add; auto.
  Qed.

  Lemma fr_del g f t : WF g -> lvf g f = true -> is_cycle (nx g) (fe g f :: t) ->
    face_removed g (del_face f (fe g f :: t) g) f.
  Proof.
    intros W L C. destruct (wf_fe W _ L) as [LE FE]. split.
    - split; auto. cbn -[Nat.eqb mem]. unfold fu. rewrite Nat.eqb_refl. auto.
    - intros x LX. cbn -[mem]. destruct (mem x (fe g f :: t)) eqn:M.
      + apply mem_in in M. rewrite (loop_fc W C LE M), FE. cbn. rewrite Nat.eqb_refl. auto.
      + destruct (fc g x) as [f'|] eqn:FX; auto. cbn. destruct (Nat.eqb_spec f' f) as [->|]; auto.
        exfalso. apply mem_out in M. apply M. apply (cycle_reach _ C). apply (wf_fc W _ LX FX).
    - intros x. cbn -[mem]. repeat split; auto.
    - split; auto.
    - intros f' N. apply Nat.eqb_neq in N. split; cbn -[Nat.eqb mem]; unfold fu; rewrite N; auto.
  Qed.

  Lemma spec_remove_face c m f m' y : wf m -> remove_face c m f = Ok (m', y) ->
    wf m' /\ face_removed (abs m) (abs m') f /\ exists cu, fp (abs m) f = Some (cu, y).
  Proof.
    intros Wm H. destruct (wf_abs Wm) as [R W].
    assert (LF : lvf (abs m) f = true).
    { unfold remove_face in H. apply bind_ok in H as (x & H1 & _). unfold m_face, d_get in H1. cbn. unfold d_has.
      destruct (nth_error _ f) as [[[]|]|]; try discriminate; auto. }
    destruct (wf_fe W _ LF) as [LE _]. destruct (loop_exists R W LE) as [t C].
    destruct (remove_face_ok R W LF C H) as [R' P].
    destruct (rep_wf R' (del_face_WF W LF C)) as [Wm' Q]. split; auto. split; auto.
    eapply face_removed_geq; [exact Q|]. apply fr_del; auto.
  Qed.

  Lemma spec_between_any c m v y0 w y1 m' e0 e1 : wf m -> v <> w ->
    (dbg c = true \/ (one_corner (abs m) v /\ one_corner (abs m) w)) ->
    insert_edge_between c m v y0 w y1 = Ok (m', e0, e1) ->
    wf m' /\ (exists ci co, connected (abs m) (abs m') v w ci co e0 e1 y0 y1) /\
    (dbg c = true -> forall e, lv (abs m) e = true -> ~ (og (abs m) e = v /\ og (abs m) (tw (abs m) e) = w)).
  Proof.
    intros Wm VW U H. destruct (wf_abs Wm) as [R W].
    destruct (insert_edge_between_ok R W VW U H) as
      (F0 & F1 & N & ca & cb & CA & CB & CC & _ & _ & R' & SH).
    pose proof (@splice_WF _ _ _ (abs m) e0 e1 v w ca cb y0 y1 W F0 F1 N CA CB CC) as W'.
    destruct (rep_wf R' W') as [Wm' Q]. split; auto.
    destruct (@corner_facts _ _ _ (abs m) W v ca CA) as [LV FA]. destruct (@corner_facts _ _ _ (abs m) W w cb CB) as [LW FB].
    split.
    2:{ intros D e L [O1 O2]. destruct (SH D) as [S _].
        destruct (@shared_edge_ok _ _ _ m [] [] [] (abs m) c R W v w LV) as (o & E & P).
        rewrite S in E. injection E as <-. eapply P; eauto. }
    exists (option_map fst ca), (option_map fst cb). eapply connected_geq; [exact Q|].
    assert (SO : forall l, loop (abs m) l -> (forall i, option_map fst ca = Some i -> ~ In i l) ->
      (forall o, option_map fst cb = Some o -> ~ In o l) -> loop (splice e0 e1 v w ca cb y0 y1 (abs m)) l).
    { intros l L A B. apply sp_other; auto. intros x I. split.
      - destruct ca as [[i o]|]; auto. apply at_in_ne. intros ->. eapply A; eauto; reflexivity.
      - destruct cb as [[i o]|]; auto. apply at_in_ne. intros ->. eapply B; eauto; reflexivity. }
    split; auto.
    - apply splice_pair; auto.
    - split; auto.
    - intros u A B. split; auto. intros _. cbn -[Nat.eqb abs]. apply Nat.eqb_neq in A, B. rewrite A, B. auto.
    - split; auto. cbn -[Nat.eqb abs]. rewrite Nat.eqb_refl. destruct ca as [[i o]|]; cbn -[Nat.eqb abs].
      + destruct (FA _ _ eq_refl) as (_ & _ & _ & _ & _ & _ & _ & _ & _ & V). apply Nat.eqb_neq in VW. rewrite VW. cbn -[abs].
        destruct (ve (abs m) v); [auto|congruence].
      + destruct CA as [_ V]. rewrite V. auto.
    - split; auto. cbn -[Nat.eqb abs]. rewrite Nat.eqb_refl. apply not_eq_sym in VW. apply Nat.eqb_neq in VW. rewrite VW. cbn -[abs].
      destruct cb as [[i o]|]; cbn -[abs].
      + destruct (FB _ _ eq_refl) as (_ & _ & _ & _ & _ & _ & _ & _ & _ & V).
        destruct (ve (abs m) w); [auto|congruence].
      + destruct CB as [_ V]. rewrite V. auto.
    - destruct ca as [[i o]|]; cbn -[abs].
      + destruct (FA _ _ eq_refl) as (? & _ & _ & _ & _ & ? & _ & ? & _ & V). auto.
      + apply CA.
    - destruct cb as [[i o]|]; cbn -[abs].
      + destruct (FB _ _ eq_refl) as (? & _ & _ & _ & _ & ? & _ & ? & _ & V). auto.
      + apply CB.
    - destruct ca as [[i o]|], cb as [[j p]|]; cbn [option_map fst].
      + destruct (FA _ _ eq_refl) as (? & _ & <- & _). destruct (FB _ _ eq_refl) as (? & _ & <- & _).
        split; [apply CC|]. split; intros; [apply sp_split|apply sp_join]; auto.
      + destruct (FA _ _ eq_refl) as (? & _ & <- & _). intros. apply sp_hang1; auto.
      + destruct (FB _ _ eq_refl) as (? & _ & <- & _). intros. apply sp_hang2; auto.
      + apply sp_new; auto.
  Qed.

  Lemma spec_insert_edge_between c m v y0 w y1 m' e0 e1 : wf m -> dbg c = true -> v <> w ->
    insert_edge_between c m v y0 w y1 = Ok (m', e0, e1) ->
    wf m' /\ (exists ci co, connected (abs m) (abs m') v w ci co e0 e1 y0 y1) /\
    (forall e, lv (abs m) e = true -> ~ (og (abs m) e = v /\ og (abs m) (tw (abs m) e) = w)).
  Proof.
    intros Wm D VW H. destruct (spec_between_any Wm VW (or_introl D) H) as (A & B & C). auto.
  Qed.

  Lemma chain_map g s g' x l : (forall y, In y (x :: l) -> nx g' (s y) = s (nx g y)) ->
    chain (nx g) x l -> chain (nx g') (s x) (map s l).
  Proof.
    revert x. induction l as [|y l IH]; simpl; auto. intros x H [<- C]. split.
    - apply H; auto. - apply IH; auto.
  Qed.
  Lemma last_map {A B} (f : A -> B) l x : last (map f l) (f x) = f (last l x).
  Proof. revert x. induction l as [|y l IH]; intros; auto. cbn [map]. rewrite !last_cons. auto. Qed.
  Lemma loop_map g g' s l : (forall x, lv g x = true -> lv g' (s x) = true /\ nx g' (s x) = s (nx g x)) ->
    (forall x, s (s x) = x) -> loop g l -> loop g' (map s l).
  Proof.
    intros H S [L C]. split.
    - intros x I. apply in_map_iff in I as (y & <- & I). apply H; auto.
    - destruct l as [|x t]; [destruct C|]. apply is_cycle_cons in C as (D & C & Z).
      cbn [map]. apply is_cycle_cons. split; [|split].
      + change (NoDup (map s (x :: t))). apply FinFun.Injective_map_NoDup; auto.
        intros a b E. rewrite <- (S a), <- (S b), E. auto.
      + apply (@chain_map g). { intros y I. apply H; auto. } auto.
      + rewrite last_map. rewrite (proj2 (H _ (L _ (last_in t x)))). congruence.
  Qed.

  Lemma spec_flip c m e m' : wf m ->
    (lv (abs m) e = true -> flippable (abs m) e) -> flip_edge m e = Ok m' ->
    wf m' /\ lv (abs m) e = true /\ renamed (swap e (tw (abs m) e)) (abs m) (abs m').
  Proof.
    intros Wm P H. destruct (wf_abs Wm) as [R W].
    destruct (flip_edge_ok R W H) as [L R']. specialize (R' (P L)).
    destruct (rep_wf R' (gflip_WF R W L)) as [Wm' Q]. split; auto. split; auto.
    eapply renamed_geq; [exact Q|]. change swap with swp. split.
    - intros x. split; auto.
    - intros x LX. cbn -[abs swp]. auto.
    - intros l LP. eapply loop_map; [|apply swp_swp|exact LP]. intros x LX. split.
      + cbn -[abs swp]. rewrite s_live; auto.
      + cbn -[abs swp]. rewrite swp_swp. auto.
    - split; auto.
    - split; auto.
  Qed.

  (** *** reachability *)
  Lemma bstep_wf c m o m' : wf m -> dbg c = true -> bpre (abs m) o -> bstep c m o = Ok m' -> wf m'.
  Proof.
    intros W D P H. destruct o; cbn [bstep] in H; cbn [bpre] in P.
    - apply bind_ok in H as ((? & ?) & H & E). injection E as <-. eapply spec_add_vertex; eauto.
    - apply bind_ok in H as (((? & ?) & ?) & H & E). injection E as <-. eapply spec_add_isolated_edge; eauto.
    - apply bind_ok in H as ((((? & ?) & ?) & ?) & H & E). injection E as <-. exact (proj1 (spec_add_vertex_via_edge W (or_introl D) P H)).
    - apply bind_ok in H as ((((? & ?) & ?) & ?) & H & E). injection E as <-. eapply spec_add_vertex_via_vertex; eauto.
    - apply bind_ok in H as (((? & ?) & ?) & H & E). injection E as <-. eapply spec_insert_edge_between; eauto.
    - apply bind_ok in H as (((? & ?) & ?) & H & E). injection E as <-. destruct P as [P1 P2]. exact (proj1 (spec_insert_edge W (or_introl D) P1 P2 H)).
    - apply bind_ok in H as ((? & ?) & H & E). injection E as <-. exact (proj1 (spec_close_hole W (or_introl D) H)).
    - apply bind_ok in H as ((((? & ?) & ?) & ?) & H & E). injection E as <-. exact (proj1 (spec_close_face W (or_introl D) H)).
    - apply bind_ok in H as ((((? & ?) & ?) & ?) & H & E). injection E as <-.
      destruct (wf_abs W) as [R WW]. destruct (close_face_vertices_ok R WW H) as (i & o & _ & _ & _ & _ & _ & _ & _ & H').
      exact (proj1 (spec_close_face W (or_introl D) H')).
    - apply bind_ok in H as ((? & ?) & H & E). injection E as <-. eapply spec_remove_face; eauto.
    - eapply spec_flip; eauto.
  Qed.

  Lemma empty_wf : wf (@empty_mesh VP EP FP).
  Proof.
    apply wf_rep. exists (abs empty_mesh). split.
    - apply rep_abs; apply new_ok.
    - split; cbn; intros; try discriminate; try (destruct e; discriminate); try (destruct f; discriminate); try (destruct v; discriminate).
  Qed.

  Lemma brun_wf c os m m' : wf m -> dbg c = true -> bpre_run c m os -> brun c m os = Ok m' -> wf m'.
  Proof.
    revert m. induction os as [|o os IH]; cbn; intros m W D P H.
    - injection H as <-. auto.
    - destruct P as [P1 P2]. apply bind_ok in H as (m1 & H1 & H2).
      apply (IH m1); auto. exact (bstep_wf W D P1 H1).
  Qed.

  Lemma reachable_wf m : reachable m -> wf m.
  Proof. intros (c & os & D & P & H). eapply brun_wf; eauto. apply empty_wf. Qed.
End MeshProofs.
