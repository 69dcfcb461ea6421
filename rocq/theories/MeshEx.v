(** Deciding consistency of concrete meshes, and the concrete meshes used in examples. *)
From Coq Require Import List Arith Lia Bool.
From Verif Require Import Base DVec DVecFacts Mesh Spec MeshSpec MeshMore.
Import ListNotations.
Set Implicit Arguments.
Unset Strict Implicit.

Definition all_below (n : nat) (p : nat -> bool) : bool := forallb p (seq 0 n).
Lemma all_below_ok n p : all_below n p = true -> forall i, i < n -> p i = true.
Proof. unfold all_below. rewrite forallb_forall. intros H i L. apply H, in_seq. lia. Qed.

Definition reachb (f : nat -> nat) (n a b : nat) : bool := existsb (fun k => Nat.iter k f a =? b) (seq 0 n).
Lemma reachb_ok f n a b : reachb f n a b = true -> reach f a b.
Proof.
  unfold reachb. rewrite existsb_exists. intros (k & _ & E). apply Nat.eqb_eq in E. apply reach_iter. eauto.
Qed.

Definition inb (x : nat) (l : list nat) : bool := existsb (Nat.eqb x) l.
Lemma inb_in x l : inb x l = true <-> In x l.
Proof.
  unfold inb. rewrite existsb_exists. split.
  - intros (y & I & E). apply Nat.eqb_eq in E. subst; auto.
  - intros I. exists x. split; auto. apply Nat.eqb_refl.
Qed.

Fixpoint nodupb (l : list nat) : bool :=
  match l with [] => true | x :: t => negb (inb x t) && nodupb t end.
Lemma nodupb_ok l : nodupb l = true -> NoDup l.
Proof.
  induction l as [|x l IH]; cbn; [constructor|]. intros H. apply andb_true_iff in H as [A B].
  constructor; auto. intros I. apply inb_in in I. rewrite I in A. discriminate.
Qed.

Definition dv_okb {A} (d : dvec A) : bool :=
  nodupb (free d) && forallb (fun i => i <? length (slots d)) (free d) &&
  all_below (length (slots d)) (fun i => match nth_error (slots d) i with
    | Some None => inb i (free d)
    | Some (Some (k, _)) => (k =? i) && negb (inb i (free d))
    | None => false
    end).
Lemma dv_okb_ok {A} (d : dvec A) : dv_okb d = true -> dv_ok d [].
Proof.
  unfold dv_okb. rewrite !andb_true_iff. intros [[N F] H]. pose proof (all_below_ok H) as H'. clear H.
  rewrite forallb_forall in F. split; rewrite ?app_nil_r.
  - apply nodupb_ok; auto.
  - intros i. split.
    + intros E. assert (L : i < length (slots d)) by (apply nth_error_Some; congruence).
      specialize (H' i L). cbv beta in H'. rewrite E in H'. apply inb_in; auto.
    + intros I. pose proof (F i I) as L. apply Nat.ltb_lt in L. specialize (H' i L). cbv beta in H'.
      destruct (nth_error (slots d) i) as [[[k v]|]|]; auto; [|discriminate].
      apply andb_true_iff in H' as [_ H']. apply inb_in in I. rewrite I in H'. discriminate.
  - intros i k v E. assert (L : i < length (slots d)) by (apply nth_error_Some; congruence).
    specialize (H' i L). cbv beta in H'. rewrite E in H'. apply andb_true_iff in H' as [H' _]. apply Nat.eqb_eq; auto.
Qed.

Section Dec.
  Context {VP EP FP : Type}.
  Implicit Types (g : graph VP EP FP) (m : mesh VP EP FP).

  Definition okE g n : bool := all_below n (fun e => implb (lv g e)
    (lv g (tw g e) && (tw g (tw g e) =? e) && negb (tw g e =? e) && lv g (nx g e) && lv g (pv g e) &&
     (pv g (nx g e) =? e) && (nx g (pv g e) =? e) && (og g (nx g e) =? og g (tw g e)) &&
     oeqb (fc g (nx g e)) (fc g e) && lvv g (og g e) &&
     match ve g (og g e) with Some e0 => reachb (wheel g) n e0 e | None => false end &&
     match fc g e with Some f => lvf g f && reachb (nx g) n (fe g f) e | None => true end)).
  Definition okV g n : bool := all_below n (fun v => implb (lvv g v)
    match ve g v with Some e => lv g e && (og g e =? v) | None => true end).
  Definition okF g n : bool := all_below n (fun f => implb (lvf g f) (lv g (fe g f) && oeqb (fc g (fe g f)) (Some f))).
  Definition wfb m : bool :=
    dv_okb (edges m) && dv_okb (verts m) && dv_okb (faces m) &&
    okE (abs m) (length (slots (edges m))) && okV (abs m) (length (slots (verts m))) &&
    okF (abs m) (length (slots (faces m))).

  Lemma has_lt {A} (d : dvec A) i : d_has d i = true -> i < length (slots d).
  Proof.
    unfold d_has. destruct (nth_error (slots d) i) eqn:E; [|discriminate]. intros _.
    apply nth_error_Some. congruence.
  Qed.

  Lemma oeqb_true a b : oeqb a b = true -> a = b.
  Proof. destruct a, b; cbn; intros H; try discriminate; auto. apply Nat.eqb_eq in H. congruence. Qed.

  Lemma wfb_ok m : wfb m = true -> wf m.
  Proof.
    unfold wfb. rewrite !andb_true_iff. intros [[[[[A B] C] E] V] F].
    split; [apply dv_okb_ok; auto|]. split; [apply dv_okb_ok; auto|]. split; [apply dv_okb_ok; auto|].
    pose proof (all_below_ok E) as E'. pose proof (all_below_ok V) as V'. pose proof (all_below_ok F) as F'. clear A B C E V F.
    set (g := abs m) in *.
    assert (X : forall e, lv g e = true -> lv g (tw g e) = true /\ tw g (tw g e) = e /\ tw g e <> e /\
       lv g (nx g e) = true /\ lv g (pv g e) = true /\ pv g (nx g e) = e /\ nx g (pv g e) = e /\
       og g (nx g e) = og g (tw g e) /\ fc g (nx g e) = fc g e /\ lvv g (og g e) = true /\
       (exists e0, ve g (og g e) = Some e0 /\ reach (wheel g) e0 e) /\
       (forall f, fc g e = Some f -> lvf g f = true /\ reach (nx g) (fe g f) e)).
    { intros e L. specialize (E' e (has_lt L)). cbv beta in E'. rewrite L in E'. cbn [implb] in E'.
      rewrite !andb_true_iff, negb_true_iff, !Nat.eqb_eq, Nat.eqb_neq in E'.
      destruct E' as [[[[[[[[[[[H1 H2] H3] H4] H5] H6] H7] H8] H9] H10] H11] H12].
      apply oeqb_true in H9. do 10 (split; [assumption|]). split.
      - destruct (ve g (og g e)) as [e0|]; [|discriminate]. exists e0. split; auto. eapply reachb_ok; eauto.
      - intros f Ff. rewrite Ff in H12. apply andb_true_iff in H12 as [? H12]. split; auto. eapply reachb_ok; eauto. }
    split; try (intros e L; apply X in L; tauto).
    - intros v e L Q. specialize (V' v (has_lt L)). cbv beta in V'. rewrite L, Q in V'. cbn [implb] in V'.
      apply andb_true_iff in V' as [? ?]. split; auto. apply Nat.eqb_eq; auto.
    - intros e f L Q. apply X in L as (_ & _ & _ & _ & _ & _ & _ & _ & _ & _ & _ & L). auto.
    - intros f L. specialize (F' f (has_lt L)). cbv beta in F'. rewrite L in F'. cbn [implb] in F'.
      apply andb_true_iff in F' as [? ?]. split; auto. apply oeqb_true; auto.
  Qed.

  Definition loopb g (l : list nat) : bool :=
    match l with
    | [] => false
    | x :: t => forallb (lv g) l && nodupb l &&
       (fix ch x t := match t with [] => true | y :: t => (nx g x =? y) && ch y t end) x t && (nx g (last l x) =? x)
    end.
  Lemma loopb_ok g l : loopb g l = true -> loop g l.
  Proof.
    destruct l as [|x t]; [discriminate|]. unfold loopb. rewrite !andb_true_iff. intros [[[A B] C] D].
    rewrite forallb_forall in A. split; auto. split; [apply nodupb_ok; auto|]. split; [|apply Nat.eqb_eq; auto].
    clear A B D. revert x C. induction t as [|y t IH]; intros x C; cbn in *; auto.
    apply andb_true_iff in C as [C1 C2]. apply Nat.eqb_eq in C1. split; auto.
  Qed.
End Dec.

Definition get_ok {A} (d : A) (r : res A) : A := match r with Ok a => a | _ => d end.

Definition c0 : cfg := mkCfg 255 255 255 true.

(** The vertex payload of the n-th vertex is 10n, edge payloads are 0. *)
Definition ex_path : mesh nat nat nat := get_ok empty_mesh (let* (m, _, _) := insert_path 0 c0 empty_mesh [0; 10; 20; 30] in Ok m).
Definition ex_loop4 : mesh nat nat nat := get_ok empty_mesh (let* (m, _) := insert_loop 0 c0 empty_mesh [0; 10; 20; 30] in Ok m).
(** a square with a face on one side *)
Definition ex_square : mesh nat nat nat := get_ok empty_mesh (let* (m, _) := insert_polygon 0 7 c0 empty_mesh [0; 10; 20; 30] in Ok m).
(** two isolated vertices and a triangle *)
Definition ex_mix : mesh nat nat nat := get_ok empty_mesh
  (let* (m, _) := insert_polygon 0 7 c0 empty_mesh [0; 10; 20] in
   let* (m, _) := add_vertex c0 m 50 in let* (m, _) := add_vertex c0 m 60 in Ok m).

Definition dump (m : mesh nat nat nat) :=
  (map (fun p => (fst p, (e_next (snd p), e_prev (snd p), e_twin (snd p)), (e_origin (snd p), e_face (snd p)))) (d_iter (edges m)),
   map (fun p => (fst p, v_edge (snd p))) (d_iter (verts m)),
   map (fun p => (fst p, f_edge (snd p))) (d_iter (faces m))).

(** two triangles whose face loops are both labelled with face 0 *)
Definition ex_two_loops_one_face : mesh nat nat nat := get_ok empty_mesh
  (let* (m, _) := insert_polygon 0 7 c0 empty_mesh [0; 10; 20] in
   let* (m, _) := insert_polygon 0 7 c0 m [0; 10; 20] in
   let* (m, _) := remove_face c0 m 1 in
   foldM (fun m e => upd_edge m e (w_face (Some 0))) [7; 9; 10] m).

(** A path of three vertices closed to a triangle, then a face, a flip, a vertex and the face removed. *)
Definition ex_ops : list (bop nat nat nat) :=
  [BIsolated 0 1 10 2; BViaVertex 1 20 3 4; BBetween 2 5 0 6; BCloseHole 1 7 false; BFlip 1; BVertex 30; BRemoveFace 0].
