(** Facts about triangulations. *)
From Coq Require Import List Arith ZArith Lia Permutation Bool Ring Setoid Morphisms.
From Verif Require Import TriSpec.
Import ListNotations.
Set Implicit Arguments.
Unset Strict Implicit.

Section TriFacts.
  Variable V : Type.
  Implicit Types (a b k x y : V) (l p q m : list V) (T : list (V * V * V)).

  Lemma tri_length a l b T : tri a l b T -> length T = length l.
  Proof.
    induction 1; auto.
    - cbn. rewrite !app_length in *. cbn. lia.
    - rewrite <- IHtri. symmetry. apply Permutation_length. auto.
  Qed.

  Lemma triangulates_length p T : triangulates p T -> 2 + length T = length p.
  Proof. intros (a & l & b & -> & H). cbn. rewrite app_length, (tri_length H). cbn. lia. Qed.

  Lemma tri_mirror a l b T : tri a l b T -> tri b (rev l) a (map (@flip_tri V) T).
  Proof.
    induction 1.
    - constructor.
    - rewrite rev_app_distr. cbn. rewrite <- app_assoc. cbn.
      apply tri_perm with ((b, k, a) :: map (@flip_tri V) T2 ++ map (@flip_tri V) T1).
      + constructor. rewrite map_app. apply Permutation_app_comm.
      + apply tri_node; auto.
    - eapply tri_perm; [apply Permutation_map; eauto|auto].
    - cbn in *. apply tri_turn, tri_turn. auto.
  Qed.

  (** Gluing a polygon onto an edge. *)
  Lemma split_pair (l1 l2 : list V) k : forall p x y q, l1 ++ k :: l2 = p ++ x :: y :: q ->
    (exists q1, l1 ++ [k] = p ++ x :: y :: q1 /\ q = q1 ++ l2) \/
    (exists p1, k :: l2 = p1 ++ x :: y :: q /\ p = l1 ++ p1).
  Proof.
    induction l1 as [|c l1 IH]; intros p x y q E; cbn in E.
    - right. exists p. auto.
    - destruct p as [|d p]; cbn in E.
      + injection E as <- E. destruct l1 as [|c' l1]; cbn in E.
        * injection E as <- <-. left. exists []. auto.
        * injection E as <- <-. left. exists (l1 ++ [k]). split; [reflexivity|]. rewrite <- app_assoc. reflexivity.
      + injection E as <- E. destruct (IH _ _ _ _ E) as [(q1 & E1 & ->)|(p1 & E1 & ->)].
        * left. exists q1. split; auto. cbn. rewrite E1. reflexivity.
        * right. exists p1. auto.
  Qed.

  Lemma ends a l b p x y q m : a :: l ++ [b] = p ++ x :: y :: q ->
    exists l', a :: l' ++ [b] = p ++ x :: m ++ y :: q.
  Proof.
    intros E. assert (exists r, p ++ x :: m ++ y :: q = a :: r) as [r R].
    { destruct p; cbn in *; injection E as <- _; eauto. }
    assert (exists r', p ++ x :: m ++ y :: q = r' ++ [b]) as [r' R'].
    { destruct (exists_last (l := y :: q) ltac:(discriminate)) as (s & z & S). rewrite S in *.
      assert (Z : z = b).
      { change (x :: s ++ [z]) with ((x :: s) ++ [z]) in E. rewrite app_assoc in E.
        change (a :: l ++ [b]) with ((a :: l) ++ [b]) in E. apply app_inj_tail in E as [_ E]. auto. }
      subst z. exists (p ++ x :: m ++ s). repeat rewrite <- app_assoc. cbn. rewrite <- app_assoc. auto. }
    rewrite R in R'. destruct r' as [|c r'].
    - cbn in R'. injection R' as -> ->. destruct p as [|? p]; cbn in R; [|destruct p]; destruct m; discriminate.
    - cbn in R'. injection R' as <- ->. exists r'. auto.
  Qed.

  Lemma tri_glue a l b T : tri a l b T -> forall p x y q m T2, a :: l ++ [b] = p ++ x :: y :: q ->
    tri x m y T2 -> exists l', a :: l' ++ [b] = p ++ x :: m ++ y :: q /\ tri a l' b (T ++ T2).
  Proof.
    induction 1 as [a b|a l1 k l2 b T1 T1' H1 IH1 H2 IH2|a l b T T' P H IH|a l b x y z T H IH]; intros p u v q m T2 E G.
    - destruct p as [|c [|d p]]; cbn in E.
      + injection E as <- <- <-. exists m. cbn. auto.
      + injection E as <- E. destruct q; discriminate.
      + injection E as <- E1 E. destruct p; discriminate.
    - assert (E' : (a :: l1) ++ k :: (l2 ++ [b]) = p ++ u :: v :: q).
      { rewrite <- E. cbn. rewrite <- app_assoc. reflexivity. }
      apply split_pair in E' as [(q1 & E1 & ->)|(p1 & E1 & ->)].
      + destruct (IH1 _ _ _ _ _ _ E1 G) as (l' & L & R). exists (l' ++ k :: l2). split.
        * transitivity ((a :: l' ++ [k]) ++ l2 ++ [b]); [cbn; repeat rewrite <- app_assoc; reflexivity|].
          rewrite L. repeat (rewrite <- app_assoc; cbn). reflexivity.
        * eapply tri_perm; [|apply tri_node; [exact R|exact H2]]. cbn. constructor.
          repeat rewrite <- app_assoc. apply Permutation_app_head. apply Permutation_app_comm.
      + destruct (IH2 _ _ _ _ _ _ E1 G) as (l' & L & R). exists (l1 ++ k :: l'). split.
        * transitivity ((a :: l1) ++ (k :: l' ++ [b])); [cbn; repeat rewrite <- app_assoc; reflexivity|].
          rewrite L. repeat (rewrite <- app_assoc; cbn). reflexivity.
        * eapply tri_perm; [|apply tri_node; [exact H1|exact R]]. cbn. constructor.
          repeat rewrite <- app_assoc. auto.
    - destruct (IH _ _ _ _ _ _ E G) as (l' & L & R). exists l'. split; auto.
      eapply tri_perm; [|exact R]. apply Permutation_app_tail. auto.
    - destruct (IH _ _ _ _ _ _ E G) as (l' & L & R). exists l'. split; auto. cbn in *. apply tri_turn. auto.
  Qed.

  (** Rotating the polygon. *)
  Lemma tri_rotate a l0 b T : tri a l0 b T -> forall c l, l0 = c :: l -> tri c (l ++ [b]) a T.
  Proof.
    induction 1 as [a b|a l1 k l2 b T1 T2 H1 IH1 H2 IH2|a l b T T' P H IH|a l b x y z T H IH]; intros c r E.
    - discriminate.
    - assert (X : tri k (l2 ++ [b]) a ((a, k, b) :: T2)).
      { apply tri_turn, tri_turn. eapply tri_perm; [|apply tri_node; [exact H2|apply tri_edge]].
        rewrite app_nil_r. auto. }
      destruct l1 as [|c' l1]; cbn in E; injection E as <- <-.
      + pose proof (tri_length H1) as L. destruct T1; [|discriminate]. auto.
      + specialize (IH1 _ _ eq_refl).
        destruct (tri_glue IH1 (p := c' :: l1) (x := k) (y := a) (q := []) (m := l2 ++ [b]) (T2 := (a, k, b) :: T2)) as (l' & L & R).
        * cbn. rewrite <- app_assoc. reflexivity.
        * exact X.
        * assert (l' = l1 ++ k :: l2 ++ [b]) as ->.
          { cbn in L. injection L as L. apply app_inv_tail with [a]. rewrite L. repeat (rewrite <- app_assoc; cbn). reflexivity. }
          rewrite <- app_assoc. eapply tri_perm; [|exact R]. symmetry. apply Permutation_middle.
    - eapply tri_perm; [eassumption|]. eapply IH. eassumption.
    - apply tri_turn. eapply IH. eassumption.
  Qed.

  Lemma triangulates_rotate a p T : triangulates (a :: p) T -> triangulates (p ++ [a]) T.
  Proof.
    intros (a' & l & b & E & H). injection E as <- ->. destruct l as [|c l].
    - exists b, [], a. split; auto. pose proof (tri_length H) as L. destruct T; [|discriminate]. constructor.
    - exists c, (l ++ [b]), a. split; auto. eapply tri_rotate; eauto.
  Qed.
  Lemma triangulates_rot p q T : triangulates (p ++ q) T -> triangulates (q ++ p) T.
  Proof.
    revert q. induction p as [|a p IH]; intros q H; [rewrite app_nil_r; auto|].
    cbn in H. apply triangulates_rotate in H. rewrite <- app_assoc in H. apply IH in H. rewrite <- app_assoc in H. auto.
  Qed.

  Lemma triangulates_perm p T T' : Permutation T T' -> triangulates p T -> triangulates p T'.
  Proof. intros P (a & l & b & -> & H). exists a, l, b. split; auto. eapply tri_perm; eauto. Qed.
  Lemma triangulates_turn p x y z T : triangulates p ((x, y, z) :: T) -> triangulates p ((y, z, x) :: T).
  Proof. intros (a & l & b & -> & H). exists a, l, b. split; auto. apply tri_turn; auto. Qed.
  Lemma triangulates_mirror p T : triangulates p T -> triangulates (rev p) (map (@flip_tri V) T).
  Proof.
    intros (a & l & b & -> & H). exists b, (rev l), a. split.
    - cbn. rewrite rev_app_distr. reflexivity.
    - apply tri_mirror; auto.
  Qed.
  Lemma triangulates_tri a b c : triangulates [a; b; c] [(a, b, c)].
  Proof. exists a, [b], c. split; auto. apply (@tri_node _ a [] b [] c [] []); constructor. Qed.

  (** Two polygons glued along a common edge. *)
  Lemma triangulates_glue p x y q m T T2 :
    triangulates (p ++ x :: y :: q) T -> triangulates (x :: m ++ [y]) T2 -> triangulates (p ++ x :: m ++ y :: q) (T ++ T2).
  Proof.
    intros (a & l & b & E & H) (x' & m' & y' & E2 & H2).
    injection E2 as <- E2. apply app_inj_tail in E2 as [<- <-].
    symmetry in E. destruct (tri_glue H E H2) as (l' & L & R). exists a, l', b. auto.
  Qed.
  (** Cutting an ear. *)
  Lemma triangulates_ear p a b c q T : triangulates (p ++ a :: c :: q) T ->
    triangulates (p ++ a :: b :: c :: q) ((a, b, c) :: T).
  Proof.
    intros H. apply triangulates_perm with (T ++ [(a, b, c)]).
    - apply Permutation_sym, Permutation_cons_append.
    - apply (@triangulates_glue p a c q [b]); auto. apply triangulates_tri.
  Qed.

  Fixpoint path l : list (V * V) :=
    match l with a :: ((b :: _) as r) => (a, b) :: path r | _ => [] end.
  Lemma path_app : forall l1 k l2, path (l1 ++ k :: l2) = path (l1 ++ [k]) ++ path (k :: l2).
  Proof.
    induction l1 as [|a l1 IH]; intros k l2; [reflexivity|].
    destruct l1 as [|b l1]; [reflexivity|].
    specialize (IH k l2). cbn in *. rewrite IH. reflexivity.
  Qed.
  Lemma combine_path : forall l a z, combine (a :: l) (l ++ [z]) = path (a :: l ++ [z]).
  Proof.
    induction l as [|b l IH]; intros a z; [reflexivity|].
    cbn [app]. change (combine (a :: b :: l) (b :: l ++ [z])) with ((a, b) :: combine (b :: l) (l ++ [z])).
    rewrite IH. reflexivity.
  Qed.
  Lemma poly_edges_path a l b : poly_edges (a :: l ++ [b]) = path (a :: l ++ [b]) ++ [(b, a)].
  Proof.
    unfold poly_edges. rewrite combine_path, <- app_assoc. cbn [app].
    change (a :: l ++ [b; a]) with ((a :: l) ++ b :: [a]). rewrite path_app. reflexivity.
  Qed.

  (** Chain identity: the sum of any antisymmetric weight along the polygon is the sum over the triangles. *)
  Section Sum.
    Variables (A : Type) (rO rI : A) (radd rmul rsub : A -> A -> A) (ropp : A -> A) (req : A -> A -> Prop).
    Hypothesis Eq : Equivalence req.
    Hypothesis Ext : ring_eq_ext radd rmul ropp req.
    Hypothesis RT : ring_theory rO rI radd rmul rsub ropp req.
    Add Ring Ar : RT (setoid Eq Ext).
    Instance radd_proper : Proper (req ==> req ==> req) radd := Radd_ext Ext.
    Instance ropp_proper : Proper (req ==> req) ropp := Ropp_ext Ext.
    Variable w : V -> V -> A.
    Hypothesis anti : forall x y, req (w y x) (ropp (w x y)).
    Notation es := (esum rO radd w).

    Lemma esum_app (l1 l2 : list (V * V)) : req (es (l1 ++ l2)) (radd (es l1) (es l2)).
    Proof. induction l1 as [|[x y] l1 IH]; cbn; [ring|]. rewrite IH. ring. Qed.

    Lemma esum_perm (l1 l2 : list (V * V)) : Permutation l1 l2 -> req (es l1) (es l2).
    Proof.
      induction 1 as [|[x y] l l' P IH|[x y] [x' y'] l|l1 l2 l3 P1 IH1 P2 IH2]; cbn.
      - reflexivity.
      - rewrite IH. reflexivity.
      - ring.
      - rewrite IH1. exact IH2.
    Qed.

    Theorem tri_sum a l b T : tri a l b T ->
      req (es (flat_map (@tri_edges V) T)) (es (poly_edges (a :: l ++ [b]))).
    Proof.
      induction 1 as [a b|a l1 k l2 b T1 T2 H1 IH1 H2 IH2|a l b T T' P H IH|a l b x y z T H IH].
      - cbn. rewrite (anti a b). ring.
      - rewrite poly_edges_path in *. cbn [flat_map]. rewrite flat_map_app, !esum_app, IH1, IH2.
        rewrite !esum_app. rewrite <- app_assoc. cbn [app].
        change (a :: l1 ++ k :: l2 ++ [b]) with ((a :: l1) ++ k :: (l2 ++ [b])). rewrite path_app, esum_app.
        cbn [app]. set (P1 := es (path (a :: l1 ++ [k]))). set (P2 := es (path (k :: l2 ++ [b]))). cbn.
        rewrite (anti a k), (anti k b). ring.
      - rewrite <- IH. apply esum_perm. apply Permutation_sym in P. clear -P.
        induction P as [|x l l' P IH|x y l|]; cbn [flat_map]; auto.
        + apply Permutation_app_head. auto.
        + rewrite !app_assoc. apply Permutation_app_tail, Permutation_app_comm.
        + etransitivity; eauto.
      - rewrite <- IH. cbn. ring.
    Qed.
  End Sum.
End TriFacts.

Lemma esum_cnt (es : list (nat * nat)) a b :
  esum 0%Z Z.add (fun x y => ((if ((x =? a) && (y =? b))%nat%bool then 1 else 0) - (if ((x =? b) && (y =? a))%nat%bool then 1 else 0))%Z) es = net es a b.
Proof.
  unfold net, cnt. induction es as [|[x y] es IH]; [reflexivity|].
  cbn [esum filter fst snd]. rewrite IH. clear IH.
  destruct ((x =? a) && (y =? b)), ((x =? b) && (y =? a)); cbn [length]; lia.
Qed.

(** Every triangulation covers its polygon. *)
Theorem triangulates_covers p T : triangulates p T -> covers p T.
Proof.
  intros (a & l & b & -> & H) x y. rewrite <- !esum_cnt.
  apply (@tri_sum nat Z 0%Z 1%Z Z.add Z.mul Z.sub Z.opp eq _ (Eq_ext _ _ _) Zth); auto.
  intros u v. rewrite (andb_comm (v =? x)), (andb_comm (v =? y)).
  destruct ((u =? y) && (v =? x)), ((u =? x) && (v =? y)); reflexivity.
Qed.
Lemma triangulates_facts (p : list nat) (T : list (nat * nat * nat)) : triangulates p T -> 2 + length T = length p /\ covers p T.
Proof. intros H. split; [apply triangulates_length; auto|apply triangulates_covers; auto]. Qed.
