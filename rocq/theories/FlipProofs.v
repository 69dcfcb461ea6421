(** Flipping an edge inside a triangulation of a polygon with distinct vertices (C36). *)
From Coq Require Import List Arith Bool Lia Permutation.
From Verif Require Import Base Tess TriSpec TriFacts BufferSpec LinearProofs.
Import ListNotations.
Set Implicit Arguments.
Unset Strict Implicit.
Notation tr := (nat * nat * nat)%type.
Implicit Types (T U R C : list tr) (t u : tr).

Lemma rot3_refl t : rot3 t t.
Proof. destruct t as [[a b] c]. left. auto. Qed.
Lemma rot3_trans t1 t2 t3 : rot3 t1 t2 -> rot3 t2 t3 -> rot3 t1 t3.
Proof.
  destruct t1 as [[a b] c], t2 as [[d e] f]. cbn. intros H K.
  destruct H as [H|[H|H]]; injection H as -> -> ->; destruct K as [-> |[-> | ->]]; auto.
Qed.
Lemma rot3_sym t u : rot3 t u -> rot3 u t.
Proof. destruct t as [[a b] c]. cbn. intros [-> |[-> | ->]]; cbn; auto. Qed.
Lemma teq_rot t u R : rot3 t u -> teq (t :: R) (u :: R).
Proof.
  destruct t as [[a b] c]. cbn. intros [-> |[-> | ->]].
  - apply teq_refl.
  - apply teq_turn.
  - eapply teq_trans; apply teq_turn.
Qed.
Lemma teq_cons t T U : teq T U -> teq (t :: T) (t :: U).
Proof. intros H. apply (@teq_app _ [t] [t]); auto using teq_refl. Qed.

(** an element of one side is on the other one *)
Lemma teq_split (A B : list tr) : teq A B -> forall t A1 A2, A = A1 ++ t :: A2 ->
  exists B1 u B2, B = B1 ++ u :: B2 /\ rot3 t u /\ teq (A1 ++ A2) (B1 ++ B2).
Proof.
  induction 1 as [A B P|x y z A|A B D H1 IH1 H2 IH2]; intros t A1 A2 E.
  - subst. assert (I : In t B) by (eapply Permutation_in; [exact P|apply in_or_app; right; left; auto]).
    apply in_split in I as (B1 & B2 & ->). exists B1, t, B2. split; auto. split; [apply rot3_refl|].
    apply teq_perm. eapply Permutation_app_inv; eauto.
  - destruct A1 as [|a1 A1]; cbn in E; injection E as <- ->.
    + exists [], (y, z, x), A2. split; auto. split; [cbn; auto|apply teq_refl].
    + exists ((y, z, x) :: A1), t, A2. split; auto. split; [apply rot3_refl|]. cbn. apply teq_turn.
  - destruct (IH1 _ _ _ E) as (B1 & u & B2 & EB & R1 & Q1). destruct (IH2 _ _ _ EB) as (D1 & w & D2 & ED & R2 & Q2).
    exists D1, w, D2. split; auto. split; [eapply rot3_trans; eauto|eapply teq_trans; eauto].
Qed.
Lemma teq_in t R (B : list tr) : teq B (t :: R) -> exists B1 u B2, B = B1 ++ u :: B2 /\ rot3 t u /\ teq R (B1 ++ B2).
Proof. intros H. apply teq_sym in H. apply (teq_split H (A1 := [])). reflexivity. Qed.
Lemma teq_nil t R : ~ teq (@nil tr) (t :: R).
Proof. intros H. apply teq_in in H as (B1 & u & B2 & E & _). destruct B1; discriminate. Qed.
Lemma teq_length (A B : list tr) : teq A B -> length A = length B.
Proof. induction 1; auto; [apply Permutation_length; auto|congruence]. Qed.

(** an element of a concatenation is in one of the parts *)
Lemma app_mid (A : Type) (P Q B1 B2 : list A) (u : A) : P ++ Q = B1 ++ u :: B2 ->
  (exists l, P = B1 ++ u :: l /\ B2 = l ++ Q) \/ (exists l, Q = l ++ u :: B2 /\ B1 = P ++ l).
Proof.
  revert B1. induction P as [|p P IH]; intros B1 E.
  - right. exists B1. auto.
  - destruct B1 as [|b B1]; cbn in E; injection E as -> E.
    + left. exists P. cbn. auto.
    + destruct (IH _ E) as [(l & -> & ->)|(l & -> & ->)]; [left; exists l|right; exists l]; auto.
Qed.
Lemma teq_in_app t R (P Q : list tr) : teq (P ++ Q) (t :: R) ->
  (exists P', teq P (t :: P') /\ teq R (P' ++ Q)) \/ (exists Q', teq Q (t :: Q') /\ teq R (P ++ Q')).
Proof.
  intros H. apply teq_in in H as (B1 & u & B2 & E & RO & H). apply app_mid in E as [(l & -> & ->)|(l & -> & ->)].
  - left. exists (B1 ++ l). split.
    + eapply teq_trans; [apply teq_perm; symmetry; apply Permutation_middle|]. apply teq_sym, teq_rot; auto.
    + rewrite <- app_assoc. auto.
  - right. exists (l ++ B2). split.
    + eapply teq_trans; [apply teq_perm; symmetry; apply Permutation_middle|]. apply teq_sym, teq_rot; auto.
    + rewrite app_assoc. auto.
Qed.
Lemma teq_in_cons t R (x : tr) (Q : list tr) : teq (x :: Q) (t :: R) ->
  (rot3 t x /\ teq R Q) \/ (exists Q', teq Q (t :: Q') /\ teq R (x :: Q')).
Proof.
  intros H. apply (@teq_in_app _ _ [x] Q) in H as [(P' & H1 & H2)|(Q' & H1 & H2)].
  - left. pose proof (teq_length H1) as L. destruct P'; [|discriminate]. split; auto.
    apply teq_in in H1 as (B1 & u & B2 & E & RO & _). destruct B1 as [|b [|]]; try discriminate. injection E as <- <-. auto.
  - right. exists Q'. auto.
Qed.

(** corners *)
Definition corner (x : nat) (t : tr) : Prop := match t with (a, b, c) => x = a \/ x = b \/ x = c end.
Lemma corner_rot x t u : rot3 t u -> corner x t -> corner x u.
Proof. destruct t as [[a b] c]. cbn. intros [-> |[-> | ->]]; cbn; tauto. Qed.
Lemma teq_corners T U (Q : nat -> Prop) : teq T U ->
  (forall t x, In t T -> corner x t -> Q x) -> forall t x, In t U -> corner x t -> Q x.
Proof.
  induction 1 as [A B P|x y z A|A B D H1 IH1 H2 IH2]; intros H t w I K; auto.
  - apply (H t); auto. eapply Permutation_in; [symmetry; eauto|auto].
  - destruct I as [<-|I]; [|apply (H t); auto; right; auto]. apply (H (x, y, z)); [left; auto|]. cbn in *. tauto.
  - eauto.
Qed.
Lemma tri_corners a l b T : tri a l b T -> forall t x, In t T -> corner x t -> In x (a :: l ++ [b]).
Proof.
  induction 1 as [a b|a l1 k l2 b T1 T2 H1 IH1 H2 IH2|a l b T T' P H IH|a l b x y z T H IH]; intros t w I K.
  - destruct I.
  - cbn [In]. rewrite !in_app_iff. cbn [In]. destruct I as [<-|I].
    + cbn in K. destruct K as [-> |[-> | ->]]; tauto.
    + apply in_app_or in I as [I|I]; [pose proof (IH1 _ _ I K) as Q|pose proof (IH2 _ _ I K) as Q];
        cbn [In] in Q; rewrite in_app_iff in Q; cbn [In] in Q; tauto.
  - apply (IH t); auto. eapply Permutation_in; [symmetry; eauto|auto].
  - destruct I as [<-|I]; [|apply (IH t); auto; right; auto]. apply (IH (x, y, z)); [left; auto|]. cbn in *. tauto.
Qed.
Lemma tri_corner a l b T t R x : tri a l b T -> teq T (t :: R) -> corner x t -> In x (a :: l ++ [b]).
Proof.
  intros H Q K. apply (@teq_corners T (t :: R) (fun x => In x (a :: l ++ [b])) Q) with (t := t); [|left; auto|auto]. intros. eapply tri_corners; eauto.
Qed.

(** the polygon of a node *)
Lemma nd_node (a k b : nat) l1 l2 : NoDup (a :: (l1 ++ k :: l2) ++ [b]) ->
  NoDup (a :: l1 ++ [k]) /\ NoDup (k :: l2 ++ [b]) /\ (forall x, In x (a :: l1 ++ [k]) -> In x (k :: l2 ++ [b]) -> x = k).
Proof.
  intros H. replace (a :: (l1 ++ k :: l2) ++ [b]) with ((a :: l1 ++ [k]) ++ (l2 ++ [b])) in H
    by (cbn; rewrite <- !app_assoc; reflexivity).
  assert (H1 : NoDup (a :: l1 ++ [k]) /\ NoDup (l2 ++ [b]) /\ forall x, In x (a :: l1 ++ [k]) -> ~ In x (l2 ++ [b])).
  { clear -H. revert H. generalize (a :: l1 ++ [k]) as p. generalize (l2 ++ [b]) as q. intros q p.
    induction p as [|x p IH]; cbn; intros H; [repeat split; auto; constructor|].
    apply NoDup_cons_iff in H as [N H]. destruct (IH H) as (A & B & D). rewrite in_app_iff in N. repeat split; auto.
    - constructor; tauto.
    - intros y [<-|I]; auto. }
  destruct H1 as (A & B & D). split; auto. split.
  - constructor; auto. apply D. right. apply in_or_app. right. left. auto.
  - intros x I [<-|J]; auto. exfalso. apply (D x I J).
Qed.
Lemma nd_ends (a b : nat) l : NoDup (a :: l ++ [b]) -> a <> b.
Proof. intros H ->. apply NoDup_cons_iff in H as [N _]. apply N. apply in_or_app. right. left. auto. Qed.
Lemma nd_last (k b : nat) l : NoDup (k :: l ++ [b]) -> forall p, p = k \/ p = b -> In p (k :: l ++ [b]).
Proof. intros _ p [-> | ->]; [left; auto|right; apply in_or_app; right; left; auto]. Qed.

(** the triangle below the closing edge *)
Lemma tri_top a l b T : tri a l b T -> NoDup (a :: l ++ [b]) -> forall w R, teq T ((b, a, w) :: R) ->
  exists l1 l2 T1 T2, l = l1 ++ w :: l2 /\ tri a l1 w T1 /\ tri w l2 b T2 /\ teq R (T1 ++ T2).
Proof.
  induction 1 as [a b|a l1 k l2 b T1 T2 H1 IH1 H2 IH2|a l b T T' P H IH|a l b x y z T H IH]; intros N w R Q.
  - apply teq_nil in Q. destruct Q.
  - destruct (nd_node N) as (N1 & N2 & D). pose proof (nd_ends N) as NE. pose proof (nd_ends N1) as NE1. pose proof (nd_ends N2) as NE2.
    apply teq_in_cons in Q as [[RO Q]|(Q' & Q1 & Q2)].
    + cbn in RO. destruct RO as [E|[E|E]]; injection E; intros; try congruence. subst.
      exists l1, l2, T1, T2. auto.
    + exfalso. apply teq_in_app in Q1 as [(P' & Q1 & _)|(P' & Q1 & _)].
      * assert (I : In b (a :: l1 ++ [k])) by (eapply tri_corner; [exact H1|exact Q1|cbn; auto]).
        apply NE2. symmetry. apply D; auto. right. apply in_or_app. right. left. auto.
      * assert (I : In a (k :: l2 ++ [b])) by (eapply tri_corner; [exact H2|exact Q1|cbn; auto]).
        apply NE1. apply D; auto. left. auto.
  - apply IH; auto. eapply teq_trans; [apply teq_perm; eauto|auto].
  - apply IH; auto. eapply teq_trans; [apply teq_turn|auto].
Qed.

(** no triangle lies on the other side of the closing edge *)
Lemma tri_bottom a l b T : tri a l b T -> NoDup (a :: l ++ [b]) -> forall w R, ~ teq T ((a, b, w) :: R).
Proof.
  induction 1 as [a b|a l1 k l2 b T1 T2 H1 IH1 H2 IH2|a l b T T' P H IH|a l b x y z T H IH]; intros N w R Q.
  - apply teq_nil in Q. destruct Q.
  - destruct (nd_node N) as (N1 & N2 & D). pose proof (nd_ends N) as NE. pose proof (nd_ends N1) as NE1. pose proof (nd_ends N2) as NE2.
    apply teq_in_cons in Q as [[RO Q]|(Q' & Q1 & Q2)].
    + cbn in RO. destruct RO as [E|[E|E]]; injection E; intros; congruence.
    + apply teq_in_app in Q1 as [(P' & Q1 & _)|(P' & Q1 & _)].
      * assert (I : In b (a :: l1 ++ [k])) by (eapply tri_corner; [exact H1|exact Q1|cbn; auto]).
        apply NE2. symmetry. apply D; auto. right. apply in_or_app. right. left. auto.
      * assert (I : In a (k :: l2 ++ [b])) by (eapply tri_corner; [exact H2|exact Q1|cbn; auto]).
        apply NE1. apply D; auto. left. auto.
  - apply (IH N w R). eapply teq_trans; [apply teq_perm; eauto|auto].
  - apply (IH N w R). eapply teq_trans; [apply teq_turn|auto].
Qed.

Lemma tri_distinct a l b T : tri a l b T -> NoDup (a :: l ++ [b]) -> forall t, In t T -> distinct3 t.
Proof.
  induction 1 as [a b|a l1 k l2 b T1 T2 H1 IH1 H2 IH2|a l b T T' P H IH|a l b x y z T H IH]; intros N t I.
  - destruct I.
  - destruct (nd_node N) as (N1 & N2 & D). pose proof (nd_ends N) as NE. pose proof (nd_ends N1) as NE1. pose proof (nd_ends N2) as NE2.
    destruct I as [<-|I]; [cbn; auto|]. apply in_app_or in I as [I|I]; auto.
  - apply IH; auto. eapply Permutation_in; [symmetry; eauto|auto].
  - destruct I as [<-|I]; [|apply IH; auto; right; auto]. specialize (IH N (x, y, z) (or_introl eq_refl)). cbn in *. tauto.
Qed.

Ltac perm_teq := apply teq_perm; rewrite <- ?app_assoc; cbn [app];
  repeat first [reflexivity
    | match goal with |- Permutation (?x :: ?l) ?r =>
        match r with context [x :: ?t] => idtac end;
        (apply perm_skip || (eapply Permutation_trans; [|apply Permutation_middle])) end].

(** two different triangles do not share a directed edge *)
Lemma tri_once a l b T : tri a l b T -> NoDup (a :: l ++ [b]) -> forall x y z w R, ~ teq T ((x, y, z) :: (x, y, w) :: R).
Proof.
  induction 1 as [a b|a l1 k l2 b T1 T2 H1 IH1 H2 IH2|a l b T T' P H IH|a l b x0 y0 z0 T H IH]; intros N x y z w R Q.
  - apply teq_nil in Q. destruct Q.
  - destruct (nd_node N) as (N1 & N2 & D). pose proof (nd_ends N) as NE. pose proof (nd_ends N1) as NE1. pose proof (nd_ends N2) as NE2.
    assert (Lk : In k (a :: l1 ++ [k])) by (right; apply in_or_app; right; left; auto).
    assert (Lb : In b (k :: l2 ++ [b])) by (right; apply in_or_app; right; left; auto).
    (* a triangle of one part and the root *)
    assert (ROOT : forall z' w' R1, rot3 (x, y, z') (a, k, b) -> teq (T1 ++ T2) ((x, y, w') :: R1) -> False).
    { intros z' w' R1 RO Q1. apply teq_in_app in Q1 as [(P' & Q1 & _)|(P' & Q1 & _)].
      - assert (Ix : In x (a :: l1 ++ [k])) by (eapply tri_corner; [exact H1|exact Q1|cbn; auto]).
        assert (Iy : In y (a :: l1 ++ [k])) by (eapply tri_corner; [exact H1|exact Q1|cbn; auto]).
        cbn in RO. destruct RO as [E|[E|E]]; injection E; intros; subst.
        + eapply tri_bottom; [exact H1|exact N1|exact Q1].
        + apply NE2. symmetry. apply D; auto.
        + apply NE2. symmetry. apply D; auto.
      - assert (Ix : In x (k :: l2 ++ [b])) by (eapply tri_corner; [exact H2|exact Q1|cbn; auto]).
        assert (Iy : In y (k :: l2 ++ [b])) by (eapply tri_corner; [exact H2|exact Q1|cbn; auto]).
        cbn in RO. destruct RO as [E|[E|E]]; injection E; intros; subst.
        + apply NE1. apply D; auto. left; auto.
        + apply NE1. apply D; auto. left; auto.
        + eapply tri_bottom; [exact H2|exact N2|exact Q1]. }
    assert (BOTH : forall z' w' P1 P2, teq T1 ((x, y, z') :: P1) -> teq T2 ((x, y, w') :: P2) -> False).
    { intros z' w' P1 P2 Q1 Q2.
      assert (x = k) by (apply D; [eapply tri_corner; [exact H1|exact Q1|cbn; auto]|eapply tri_corner; [exact H2|exact Q2|cbn; auto]]).
      assert (y = k) by (apply D; [eapply tri_corner; [exact H1|exact Q1|cbn; auto]|eapply tri_corner; [exact H2|exact Q2|cbn; auto]]).
      subst. apply teq_in in Q1 as (B1 & u & B2 & -> & RO & _).
      assert (DI : distinct3 u) by (eapply tri_distinct; [exact H1|exact N1|apply in_or_app; right; left; auto]).
      cbn in RO. destruct RO as [-> |[-> | ->]]; cbn in DI; intuition. }
    apply teq_in_cons in Q as [[RO Q]|(Q' & Q1 & Q2)].
    + apply teq_sym in Q. apply (ROOT _ _ _ RO Q).
    + apply teq_sym, teq_in_cons in Q2 as [[RO Q2]|(Q3 & Q2 & Q4)].
      * apply (ROOT _ _ _ RO Q1).
      * apply teq_in_app in Q1 as [(P' & Q1 & Q5)|(P' & Q1 & Q5)].
        -- assert (Q6 : teq (P' ++ T2) ((x, y, w) :: Q3)) by (eapply teq_trans; [apply teq_sym; exact Q5|exact Q2]).
           apply teq_in_app in Q6 as [(P2 & Q6 & _)|(P2 & Q6 & _)].
           ++ apply (IH1 N1 x y z w P2). eapply teq_trans; [exact Q1|apply teq_cons; auto].
           ++ apply (BOTH _ _ _ _ Q1 Q6).
        -- assert (Q6 : teq (T1 ++ P') ((x, y, w) :: Q3)) by (eapply teq_trans; [apply teq_sym; exact Q5|exact Q2]).
           apply teq_in_app in Q6 as [(P2 & Q6 & _)|(P2 & Q6 & _)].
           ++ apply (BOTH _ _ _ _ Q6 Q1).
           ++ apply (IH2 N2 x y z w P2). eapply teq_trans; [exact Q1|apply teq_cons; auto].
  - apply (IH N x y z w R). eapply teq_trans; [apply teq_perm; eauto|auto].
  - apply (IH N x y z w R). eapply teq_trans; [apply teq_turn|auto].
Qed.

Lemma teq_comm (A B D : list tr) : teq A (B ++ D) -> teq A (D ++ B).
Proof. intros H. eapply teq_trans; [exact H|]. apply teq_perm, Permutation_app_comm. Qed.
Lemma teq_swap t u R : teq (t :: u :: R) (u :: t :: R).
Proof. apply teq_perm, perm_swap. Qed.
Lemma teq_mid t (A B : list tr) : teq (A ++ t :: B) (t :: A ++ B).
Proof. apply teq_perm. symmetry. apply Permutation_middle. Qed.
Lemma teq_cons2 t t' u u' R R' : rot3 t t' -> rot3 u u' -> teq R R' -> teq (t :: u :: R) (t' :: u' :: R').
Proof.
  intros A B H. eapply teq_trans; [apply teq_rot; exact A|]. apply teq_cons. eapply teq_trans; [apply teq_rot; exact B|].
  apply teq_cons. auto.
Qed.

(** Replacing the two triangles at a common edge [x y] by the two at the other diagonal [w z] gives
    another triangulation. *)
Lemma tri_flip a l b T : tri a l b T -> NoDup (a :: l ++ [b]) -> forall x y z w R,
  teq T ((x, y, z) :: (x, w, y) :: R) -> tri a l b ((x, w, z) :: (w, y, z) :: R).
Proof.
  induction 1 as [a b|a l1 k l2 b T1 T2 H1 IH1 H2 IH2|a l b T T' P H IH|a l b x0 y0 z0 T H IH]; intros N x y z w R Q.
  - apply teq_nil in Q. destruct Q.
  - destruct (nd_node N) as (N1 & N2 & D). pose proof (nd_ends N) as NE. pose proof (nd_ends N1) as NE1. pose proof (nd_ends N2) as NE2.
    assert (Lk : In k (a :: l1 ++ [k])) by (right; apply in_or_app; right; left; auto).
    assert (Lb : In b (k :: l2 ++ [b])) by (right; apply in_or_app; right; left; auto).
    assert (ROOT : forall x y z w R1, rot3 (x, y, z) (a, k, b) -> teq (T1 ++ T2) ((x, w, y) :: R1) ->
              tri a (l1 ++ k :: l2) b ((x, w, z) :: (w, y, z) :: R1)).
    { clear x y z w R Q. intros x y z w R1 RO Q1. apply teq_in_app in Q1 as [(P' & Q1 & Q2)|(P' & Q1 & Q2)].
      - assert (Ix : In x (a :: l1 ++ [k])) by (eapply tri_corner; [exact H1|exact Q1|cbn; auto]).
        assert (Iy : In y (a :: l1 ++ [k])) by (eapply tri_corner; [exact H1|exact Q1|cbn; auto]).
        cbn in RO. destruct RO as [E|[E|E]]; injection E; intros; subst.
        + assert (Q3 : teq T1 ((y, x, w) :: P')) by (eapply teq_trans; [exact Q1|apply teq_rot; cbn; auto]).
          destruct (tri_top H1 N1 Q3) as (la & lb & Ta & Tb & -> & HA & HB & QP).
          rewrite <- app_assoc. cbn [app].
          eapply tri_teq; [|exact (tri_node HA (tri_node HB H2))].
          eapply teq_trans; [apply teq_cons; apply teq_mid|]. apply teq_cons, teq_cons. rewrite app_assoc.
          apply teq_sym. eapply teq_trans; [exact Q2|]. apply teq_app; [auto|apply teq_refl].
        + exfalso. apply NE2. symmetry. apply D; auto.
        + exfalso. apply NE2. symmetry. apply D; auto.
      - assert (Ix : In x (k :: l2 ++ [b])) by (eapply tri_corner; [exact H2|exact Q1|cbn; auto]).
        assert (Iy : In y (k :: l2 ++ [b])) by (eapply tri_corner; [exact H2|exact Q1|cbn; auto]).
        cbn in RO. destruct RO as [E|[E|E]]; injection E; intros; subst.
        + exfalso. apply NE1. apply D; auto. left; auto.
        + exfalso. apply NE1. apply D; auto. left; auto.
        + assert (Q3 : teq T2 ((y, x, w) :: P')) by (eapply teq_trans; [exact Q1|apply teq_rot; cbn; auto]).
          destruct (tri_top H2 N2 Q3) as (la & lb & Ta & Tb & -> & HA & HB & QP).
          replace (l1 ++ x :: la ++ w :: lb) with ((l1 ++ x :: la) ++ w :: lb) by (rewrite <- app_assoc; reflexivity).
          eapply tri_teq; [|exact (tri_node (tri_node H1 HA) HB)].
          cbn [app]. eapply teq_trans; [apply teq_swap|]. apply teq_cons2; [cbn; auto|cbn; auto|].
          rewrite <- app_assoc. apply teq_sym. eapply teq_trans; [exact Q2|]. apply teq_app; [apply teq_refl|auto]. }
    assert (BOTH : forall z' w' P1 P2, teq T1 ((x, y, z') :: P1) \/ teq T1 ((x, z', y) :: P1) ->
              teq T2 ((x, y, w') :: P2) \/ teq T2 ((x, w', y) :: P2) -> False).
    { intros z' w' P1 P2 Q1 Q2.
      assert (Ix : In x (a :: l1 ++ [k])) by (destruct Q1 as [Q1|Q1]; (eapply tri_corner; [exact H1|exact Q1|cbn; auto])).
      assert (Iy : In y (a :: l1 ++ [k])) by (destruct Q1 as [Q1|Q1]; (eapply tri_corner; [exact H1|exact Q1|cbn; auto])).
      assert (Jx : In x (k :: l2 ++ [b])) by (destruct Q2 as [Q2|Q2]; (eapply tri_corner; [exact H2|exact Q2|cbn; auto])).
      assert (Jy : In y (k :: l2 ++ [b])) by (destruct Q2 as [Q2|Q2]; (eapply tri_corner; [exact H2|exact Q2|cbn; auto])).
      pose proof (D _ Ix Jx). pose proof (D _ Iy Jy). subst.
      assert (exists t, In t T1 /\ (rot3 (k, k, z') t \/ rot3 (k, z', k) t)) as (t & I & RO).
      { destruct Q1 as [Q1|Q1]; apply teq_in in Q1 as (B1 & u & B2 & -> & RO & _); exists u; (split; [apply in_or_app; right; left; auto|auto]). }
      pose proof (tri_distinct H1 N1 I) as DI.
      destruct RO as [[-> |[-> | ->]]|[-> |[-> | ->]]]; cbn in DI; intuition. }
    apply teq_in_cons in Q as [[RO Q]|(Q' & Q1 & Q2)].
    + apply ROOT; auto. apply teq_sym. auto.
    + apply teq_sym, teq_in_cons in Q2 as [[RO Q2]|(Q3 & Q2 & Q4)].
      * (* the root is the second triangle *)
        eapply tri_teq; [|apply (ROOT y x w z Q')].
        -- eapply teq_trans; [apply teq_swap|]. apply teq_cons2; [cbn; auto|cbn; auto|]. apply teq_sym; auto.
        -- eapply rot3_trans; [|exact RO]. cbn; auto.
        -- eapply teq_trans; [exact Q1|]. apply teq_rot. cbn; auto.
      * apply teq_in_app in Q1 as [(P' & Q1 & Q5)|(P' & Q1 & Q5)].
        -- assert (Q6 : teq (P' ++ T2) ((x, w, y) :: Q3)) by (eapply teq_trans; [apply teq_sym; exact Q5|exact Q2]).
           apply teq_in_app in Q6 as [(P2 & Q6 & Q7)|(P2 & Q6 & _)].
           ++ assert (G : tri a l1 k ((x, w, z) :: (w, y, z) :: P2)).
              { apply (IH1 N1). eapply teq_trans; [exact Q1|apply teq_cons; auto]. }
              eapply tri_teq; [|exact (tri_node G H2)]. cbn [app].
              eapply teq_trans; [apply teq_swap|]. apply teq_cons. eapply teq_trans; [apply teq_swap|]. apply teq_cons.
              apply teq_sym. eapply teq_trans; [exact Q4|]. apply teq_cons. auto.
           ++ exfalso. eapply BOTH; [left; exact Q1|right; exact Q6].
        -- assert (Q6 : teq (T1 ++ P') ((x, w, y) :: Q3)) by (eapply teq_trans; [apply teq_sym; exact Q5|exact Q2]).
           apply teq_in_app in Q6 as [(P2 & Q6 & _)|(P2 & Q6 & Q7)].
           ++ exfalso. eapply BOTH; [right; exact Q6|left; exact Q1].
           ++ assert (G : tri k l2 b ((x, w, z) :: (w, y, z) :: P2)).
              { apply (IH2 N2). eapply teq_trans; [exact Q1|apply teq_cons; auto]. }
              eapply tri_teq; [|exact (tri_node H1 G)].
              eapply teq_trans; [apply teq_cons; apply teq_mid|]. eapply teq_trans; [apply teq_swap|]. apply teq_cons.
              eapply teq_trans; [apply teq_cons; apply teq_mid|]. eapply teq_trans; [apply teq_swap|]. apply teq_cons.
              apply teq_sym. eapply teq_trans; [exact Q4|]. apply teq_cons. auto.
  - apply (IH N). eapply teq_trans; [apply teq_perm; eauto|auto].
  - apply (IH N). eapply teq_trans; [apply teq_turn|auto].
Qed.

(** ** the same for the region above a stack *)
Lemma chain_corners st p C : chain st p C -> forall t x, In t C -> corner x t -> In x p.
Proof.
  induction 1 as [s|s t st p l T1 T2 H IH G]; intros u x I K; [destruct I|].
  apply in_app_or in I as [I|I].
  - specialize (IH _ _ I K). rewrite !in_app_iff in *. cbn [In] in *. tauto.
  - pose proof (tri_corners G I K) as Q. cbn [In] in Q. rewrite !in_app_iff in *. cbn [In] in *. tauto.
Qed.
Lemma chain_corner st p C t R x : chain st p C -> teq C (t :: R) -> corner x t -> In x p.
Proof.
  intros H Q K. apply (@teq_corners C (t :: R) (fun x => In x p) Q) with (t := t); [|left; auto|auto].
  intros. eapply chain_corners; eauto.
Qed.
Lemma nd_push (s t : nat) p l : NoDup ((p ++ s :: l) ++ [t]) ->
  NoDup (p ++ [s]) /\ NoDup (s :: l ++ [t]) /\ (forall x, In x (p ++ [s]) -> In x (s :: l ++ [t]) -> x = s).
Proof.
  intros H. destruct p as [|a p].
  - cbn in *. split; [repeat constructor; auto|]. split; auto. intros x [<-|[]]; auto.
  - apply (@nd_node a s t p l). exact H.
Qed.
Lemma chain_distinct st p C : chain st p C -> NoDup p -> forall t, In t C -> distinct3 t.
Proof.
  induction 1 as [s|s t st p l T1 T2 H IH G]; intros N u I; [destruct I|].
  destruct (nd_push N) as (N1 & N2 & _). apply in_app_or in I as [I|I]; auto. eapply tri_distinct; eauto.
Qed.

Lemma chain_apart (s t : nat) (st p l : list nat) (T1 T2 : list tr) (x y : nat) (z' w' : tr) (P1 P2 : list tr) : NoDup ((p ++ s :: l) ++ [t]) ->
  chain (s :: st) (p ++ [s]) T1 -> tri s l t T2 ->
  teq T1 (z' :: P1) -> teq T2 (w' :: P2) -> corner x z' -> corner y z' -> corner x w' -> corner y w' -> x = y.
Proof.
  intros N H G Q1 Q2 A1 A2 A3 A4. destruct (nd_push N) as (_ & _ & D).
  rewrite (D x), (D y); auto; try (eapply chain_corner; eauto; fail); eapply tri_corner; eauto.
Qed.

Lemma chain_once st p C : chain st p C -> NoDup p -> forall x y z w R, x <> y -> ~ teq C ((x, y, z) :: (x, y, w) :: R).
Proof.
  induction 1 as [s|s t st p l T1 T2 H IH G]; intros N x y z w R NE Q; [apply teq_nil in Q; destruct Q|].
  destruct (nd_push N) as (N1 & N2 & D).
  apply teq_in_app in Q as [(P' & Q1 & Q2)|(P' & Q1 & Q2)]; apply teq_sym, teq_in_app in Q2 as [(P2 & Q2 & _)|(P2 & Q2 & _)].
  - apply (IH N1 x y z w P2 NE). eapply teq_trans; [exact Q1|apply teq_cons; auto].
  - apply NE. eapply chain_apart; [exact N|exact H|exact G|exact Q1|exact Q2|..]; cbn; auto.
  - apply NE. eapply chain_apart; [exact N|exact H|exact G|exact Q2|exact Q1|..]; cbn; auto.
  - apply (tri_once G N2 (x := x) (y := y) (z := z) (w := w) (R := P2)). eapply teq_trans; [exact Q1|apply teq_cons; auto].
Qed.

Lemma chain_flip st p C : chain st p C -> NoDup p -> forall x y z w R, x <> y ->
  teq C ((x, y, z) :: (x, w, y) :: R) -> exists C', chain st p C' /\ teq C' ((x, w, z) :: (w, y, z) :: R).
Proof.
  induction 1 as [s|s t st p l T1 T2 H IH G]; intros N x y z w R NE Q; [apply teq_nil in Q; destruct Q|].
  destruct (nd_push N) as (N1 & N2 & D).
  apply teq_in_app in Q as [(P' & Q1 & Q2)|(P' & Q1 & Q2)]; apply teq_sym, teq_in_app in Q2 as [(P2 & Q2 & Q3)|(P2 & Q2 & Q3)].
  - destruct (IH N1 x y z w P2 NE) as (C' & HC & QC). { eapply teq_trans; [exact Q1|apply teq_cons; auto]. }
    exists (C' ++ T2). split; [constructor; auto|]. eapply teq_trans; [apply teq_app; [exact QC|apply teq_refl]|].
    cbn [app]. apply teq_cons, teq_cons, teq_sym. auto.
  - exfalso. apply NE. eapply chain_apart; [exact N|exact H|exact G|exact Q1|exact Q2|..]; cbn; auto.
  - exfalso. apply NE. eapply chain_apart; [exact N|exact H|exact G|exact Q2|exact Q1|..]; cbn; auto.
  - exists (T1 ++ ((x, w, z) :: (w, y, z) :: P2)). split.
    + constructor; auto. apply (tri_flip G N2). eapply teq_trans; [exact Q1|apply teq_cons; auto].
    + eapply teq_trans; [apply teq_mid|]. apply teq_cons. eapply teq_trans; [apply teq_mid|]. apply teq_cons, teq_sym. auto.
Qed.
