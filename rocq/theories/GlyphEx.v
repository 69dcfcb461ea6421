(** Concrete glyphs over the rationals. *)
From Coq Require Import List Arith QArith Bool Lia.
From Verif Require Import Base DVec Mesh MeshMore Spec MeshSpec BuildSpec MeshEx Alg Transform TransEx Glyph GlyphSpec GlyphProofs GlyphPoints.
Import ListNotations.
Set Implicit Arguments.
Unset Strict Implicit.
Local Open Scope nat_scope.

Definition q_same (a b : vec Q) : bool := Qeq_bool (a 0) (b 0) && Qeq_bool (a 1) (b 1).
Lemma q_same_ok a b : q_same a b = true -> forall i, i < 2 -> (a i == b i)%Q.
Proof.
  intros H i Hi. apply andb_prop in H as [H0 H1]. apply Qeq_bool_eq in H0, H1.
  destruct i as [|[|i]]; [exact H0|exact H1|lia].
Qed.
Definition q_xy (x y : Q) : vec Q := qv [x; y].

(** an outer contour with a curved side and, inside, a triangle; one line has length zero *)
Definition ex_outer : list (outline Q) :=
  [OLine (q_xy 0 0) (q_xy 8 0); OQuad (q_xy 8 0) (q_xy 9 4) (q_xy 8 8); OLine (q_xy 8 8) (q_xy 0 8); OQuad (q_xy 0 8) (q_xy (-1) 4) (q_xy 0 0)].
Definition ex_inner : list (outline Q) :=
  [OLine (q_xy 2 2) (q_xy 4 6); OCubic (q_xy 4 6) (q_xy 5 5) (q_xy 6 4) (q_xy 6 2); OLine (q_xy 6 2) (q_xy 2 2)].
(** a contour whose last segment is a cubic *)
Definition ex_drop : list (outline Q) :=
  [OLine (q_xy 0 0) (q_xy 4 0); OLine (q_xy 4 0) (q_xy 4 4); OCubic (q_xy 4 4) (q_xy 2 5) (q_xy 0 3) (q_xy 0 0)].

Definition ex_glyph (g : nat) : option (list (outline Q)) :=
  match g with
  | 0 => Some ([OLine (q_xy 0 0) (q_xy 0 0)] ++ ex_outer ++ ex_inner)
  | 1 => Some ex_drop
  | _ => None
  end.
Definition ex_made (g : nat) : list (list (outline Q)) :=
  match g with 0 => [ex_outer; ex_inner] | 1 => [ex_drop] | _ => [] end.
Definition ex_kern (a b : nat) : Q := if a =? b then 0 else (-1 # 2).
Definition ex_advance (g : nat) : Q := match g with 0 => 9 | 1 => 5 | _ => 3 end.
Definition ex_text : list nat := [0; 2; 1; 0].
Definition q_draw := draw_glyph 0%Q Qplus Qmult 7 q_same.
Definition q_text := layout_text 0%Q Qplus Qmult 7 q_same ex_glyph ex_kern ex_advance.
Definition q_empty : mesh (pnu Q) (curve Q) nat := empty_mesh.

Lemma outer_contour : contour q_same ex_outer.
Proof.
  eexists _, [_; _], _. split; [reflexivity|]. split; [discriminate|]. split; [cbn; auto|].
  split; [repeat constructor|]; vm_compute; reflexivity.
Qed.
Lemma inner_contour : contour q_same ex_inner.
Proof.
  eexists _, [_], _. split; [reflexivity|]. split; [discriminate|]. split; [cbn; auto|].
  split; [repeat constructor|]; vm_compute; reflexivity.
Qed.
Lemma drop_contour : contour q_same ex_drop.
Proof.
  eexists _, [_], _. split; [reflexivity|]. split; [discriminate|]. split; [cbn; auto|].
  split; [repeat constructor|]; vm_compute; reflexivity.
Qed.
Lemma made_ok g : glyph_made q_same (ex_glyph g) (ex_made g).
Proof.
  destruct g as [|[|g]]; [| |reflexivity].
  - split; [reflexivity|]. constructor; [exact outer_contour|]. constructor; [exact inner_contour|]. constructor.
  - split; [reflexivity|]. constructor; [exact drop_contour|]. constructor.
Qed.
Lemma ex_empty_wf : wf q_empty.
Proof. apply wfb_ok; vm_compute; reflexivity. Qed.

Definition drop_last : outline Q := OCubic (q_xy 4 4) (q_xy 2 5) (q_xy 0 3) (q_xy 0 0).
Lemma drop_split l z : ex_drop = l ++ [z] -> l = firstn 2 ex_drop /\ z = drop_last.
Proof.
  intros H. change ex_drop with (firstn 2 ex_drop ++ [drop_last]) in H. apply app_inj_tail in H as [<- <-]. auto.
Qed.

(** drawing the drop stores a half-edge that is not the mirror image of its last segment *)
Lemma drop_turned : exists m' e t p, q_draw c0 1%Q 0%Q q_empty (Some ex_drop) = Ok m' /\ wf m' /\ lv (abs m') e = true /\
  og (abs m') e = 0 /\ target (abs m') e = 2 /\
  q_point m' e t = Ok p /\ ~ (p 0%nat == place 0%Q Qplus Qmult 1%Q 0%Q (o_point drop_last (1 - t)) 0%nat)%Q.
Proof.
  set (m' := get_ok q_empty (q_draw c0 1%Q 0%Q q_empty (Some ex_drop))).
  exists m', 5, (1 # 4)%Q.
  destruct (q_point m' 5 (1 # 4)%Q) as [p| |] eqn:P; [|vm_compute in P; discriminate P..].
  exists p. split; [vm_compute; reflexivity|]. split; [apply wfb_ok; vm_compute; reflexivity|].
  split; [vm_compute; reflexivity|]. split; [vm_compute; reflexivity|]. split; [vm_compute; reflexivity|]. split; [reflexivity|].
  assert (B : match q_point m' 5 (1 # 4)%Q with Ok p => Qeq_bool (p 0) (place 0%Q Qplus Qmult 1%Q 0%Q (o_point drop_last (1 - (1 # 4))) 0) | _ => true end = false)
    by (vm_compute; reflexivity).
  rewrite P in B. apply Qeq_bool_neq in B. exact B.
Qed.
Lemma drop_bad : exists ol m' e t p, contour q_same (ol ++ [drop_last]) /\
    q_draw c0 1%Q 0%Q q_empty (Some (ol ++ [drop_last])) = Ok m' /\ wf m' /\ lv (abs m') e = true /\
    og (abs m') e = 0 /\ target (abs m') e = 2 /\
    q_point m' e t = Ok p /\ ~ (p 0%nat == place 0%Q Qplus Qmult 1%Q 0%Q (o_point drop_last (1 - t)) 0%nat)%Q.
Proof.
  destruct drop_turned as (m' & e & t & p & H). exists (firstn 2 ex_drop), m', e, t, p. split; [exact drop_contour|exact H].
Qed.
