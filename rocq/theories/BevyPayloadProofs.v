(** What the methods of the Bevy vertex payloads do. *)
From Coq Require Import List Arith ZArith QArith Lia Ring Ring_theory Setoid Morphisms.
From Verif Require Import Base DVec Mesh Spec MeshSpec DVecFacts Alg AlgSpec Transform TransSpec BevyTrans BevyTransProofs BevyPayload MathEx CurveProofs TransEx.
Import ListNotations.
Set Implicit Arguments.
Unset Strict Implicit.
Local Open Scope nat_scope.

Section BevyPayloadProofs.
  Variables (R : Type) (zero one : R) (add mul sub : R -> R -> R) (opp : R -> R) (req : R -> R -> Prop).
  Hypothesis Eq : Equivalence req.
  Hypothesis Ext : ring_eq_ext add mul opp req.
  Hypothesis RT : ring_theory zero one add mul sub opp req.
  Add Ring Rp : RT (setoid Eq Ext).
  Instance addq : Proper (req ==> req ==> req) add := Radd_ext Ext.
  Instance mulq : Proper (req ==> req ==> req) mul := Rmul_ext Ext.
  Infix "+" := add. Infix "*" := mul. Infix "-" := sub.
  Infix "==" := req (at level 70).
  Notation vec := (vec R).
  Notation dot := (dot3 add mul).
  Notation payload := (b3_payload one add mul sub).
  Notation rotate := (b3_rotate one add mul sub).
  Notation translate := (b3_translate add).
  Notation scale := (b3_scale mul).
  Notation lerp := (b3_lerp one add mul sub).

  (** The normal of [p] is perpendicular to the line from [p] to [q]. *)
  Definition upright (p q : pnu R) : Prop := dot (u_nor p) (fun i => u_pos q i - u_pos p i) == zero.

  Ltac axes i H := destruct i as [|[|[|i]]]; [| | |exfalso; lia].

  Lemma rotate_transform q p : same_pnu req 3 (rotate q p) (payload (b3_from_rotation zero one q) p).
  Proof.
    split; [|split].
    - intros i H. symmetry. apply (constructors3 Eq Ext RT (fun _ => zero) q (u_pos p) H).
    - intros i H. symmetry. apply (constructors3 Eq Ext RT (fun _ => zero) q (u_nor p) H).
    - intros i H. reflexivity.
  Qed.

  Lemma moves_positions v p :
    same_vec req 3 (u_pos (translate v p)) (u_pos (payload (b3_from_translation zero one v) p)) /\
    same_vec req 3 (u_pos (scale v p)) (u_pos (payload (b3_from_scale zero one v) p)).
  Proof.
    split; intros i H; symmetry.
    - apply (constructors3 Eq Ext RT v (q_id zero one) (u_pos p) H).
    - pose proof (constructors3 Eq Ext RT v (q_id zero one) (u_pos p) H) as (_ & K & _). cbn. unfold b3_payload. cbn [u_pos].
      rewrite K. ring.
  Qed.

  Lemma normals_kept v q k p p' : unit_quat one add mul req q -> upright p p' ->
    (upright (translate v p) (translate v p') /\ dot (u_nor (translate v p)) (u_nor (translate v p)) == dot (u_nor p) (u_nor p)) /\
    (upright (rotate q p) (rotate q p') /\ dot (u_nor (rotate q p)) (u_nor (rotate q p)) == dot (u_nor p) (u_nor p)) /\
    (upright (scale (fun _ => k) p) (scale (fun _ => k) p') /\
     dot (u_nor (scale (fun _ => k) p)) (u_nor (scale (fun _ => k) p)) == dot (u_nor p) (u_nor p)).
  Proof.
    intros U H. destruct (rotation_ok Eq Ext RT U U) as (_ & _ & D & _). unfold upright in *. split; [|split]; split; cbn [u_nor u_pos b3_translate b3_rotate b3_scale]; try reflexivity.
    - rewrite <- H. unfold dot3. ring.
    - assert (K : dot (q_rot one add mul sub q (u_nor p)) (fun i => q_rot one add mul sub q (u_pos p') i - q_rot one add mul sub q (u_pos p) i) ==
                  dot (q_rot one add mul sub q (u_nor p)) (q_rot one add mul sub q (fun i => u_pos p' i - u_pos p i))).
      { unfold dot3, q_rot, q_im. cbn. ring. }
      rewrite K, D. exact H.
    - apply D.
    - assert (K : dot (u_nor p) (fun i => u_pos p' i * k - u_pos p i * k) == dot (u_nor p) (fun i => u_pos p' i - u_pos p i) * k).
      { unfold dot3. ring. }
      rewrite K, H. ring.
  Qed.

  Lemma rot_lerp q a b t i : i < 3 -> q_rot one add mul sub q (g_lerp one add mul sub a b t) i ==
    g_lerp one add mul sub (q_rot one add mul sub q a) (q_rot one add mul sub q b) t i.
  Proof. intros H. axes i H; unfold q_rot, q_im, g_lerp; cbn; ring. Qed.

  Lemma point_lerp s a b t i : i < 3 -> b3_apply one add mul sub s (g_lerp one add mul sub a b t) i ==
    g_lerp one add mul sub (b3_apply one add mul sub s a) (b3_apply one add mul sub s b) t i.
  Proof. intros H. axes i H; unfold b3_apply, transform_point, q_rot, q_im, g_lerp; cbn; ring. Qed.

  Lemma lerp_ends p q n : same_pnu req n (lerp p q zero) p /\ same_pnu req n (lerp p q one) q /\
    forall t, same_pnu req n (lerp p q t) (lerp q p (one - t)).
  Proof.
    split; [|split; [|intros t]]; (split; [|split]); intros i H; cbn; unfold g_lerp; ring.
  Qed.

  Lemma lerp_transform s q v p p' t :
    same_pnu req 3 (payload s (lerp p p' t)) (lerp (payload s p) (payload s p') t) /\
    same_pnu req 3 (rotate q (lerp p p' t)) (lerp (rotate q p) (rotate q p') t) /\
    same_pnu req 3 (translate v (lerp p p' t)) (lerp (translate v p) (translate v p') t) /\
    same_pnu req 3 (scale v (lerp p p' t)) (lerp (scale v p) (scale v p') t).
  Proof.
    split; [|split; [|split]]; (split; [|split]); intros i H; try reflexivity.
    - cbn. apply point_lerp; auto.
    - cbn. unfold b3_apply_vec. apply point_lerp; auto.
    - cbn. apply rot_lerp; auto.
    - cbn. apply rot_lerp; auto.
    - cbn. unfold g_lerp. ring.
    - cbn. unfold g_lerp. ring.
  Qed.

  (** ** two dimensions *)
  Definition same_pu (a b : pu R) : Prop := same_vec req 2 (w_pos a) (w_pos b) /\ same_vec req 2 (w_uv a) (w_uv b).
  Lemma payload2 v s t p q :
    same_pu (b2_translate add v p) (b2_payload zero add mul (b2_from_translation zero one v) p) /\
    same_pu (b2_scale mul v p) (b2_payload zero add mul (b2_from_scale zero v) p) /\
    same_pu (b2_lerp one add mul sub p q zero) p /\ same_pu (b2_lerp one add mul sub p q one) q /\
    same_pu (b2_payload zero add mul s (b2_lerp one add mul sub p q t))
      (b2_lerp one add mul sub (b2_payload zero add mul s p) (b2_payload zero add mul s q) t).
  Proof.
    split; [|split; [|split; [|split]]]; split; intros i H; destruct i as [|[|i]]; try (exfalso; lia); try reflexivity;
      cbn; unfold g_lerp, b2_apply, mvec, ident, diag, rsum; cbn; ring.
  Qed.
End BevyPayloadProofs.

Lemma mapM_first {A B : Type} (f : A -> res B) l x : In x l -> (forall y, In y l -> f y = Panic \/ exists z, f y = Ok z) ->
  f x = Panic -> mapM f l = Panic.
Proof.
  induction l as [|y l IH]; intros I T P; [destruct I|]. cbn [mapM].
  destruct (T y (or_introl eq_refl)) as [E|[z E]]; rewrite E; cbn [bind]; auto.
  destruct I as [->|I]; [congruence|]. rewrite IH; auto. intros w K. apply T. right. exact K.
Qed.

(** rotating a mesh panics as soon as it has a vertex *)
Lemma mesh_rotate_panics (R EP FP : Type) (fh : EP -> EP) (ff : FP -> FP) (r : R) (m : mesh (pu R) EP FP) v x :
  m_vertex m v = Ok x -> b2_mesh_rotate fh ff r m = Panic.
Proof.
  intros H. unfold b2_mesh_rotate, d_mapM. unfold m_vertex, d_get in H.
  destruct (nth_error (slots (verts m)) v) as [[[i y]|]|] eqn:E; try discriminate.
  rewrite (@mapM_first _ _ _ _ (Some (i, y))); auto.
  - apply nth_error_In in E. exact E.
  - intros [[j z]|] _; [left; reflexivity|right; eexists; reflexivity].
Qed.

(** ** counterexamples *)
Definition z_payload := b3_payload 1%Z Z.add Z.mul Z.sub.
Definition zp (p n : list Z) : pnu Z := mkP (zv p) (zv n) (zv [0; 0]%Z).
Lemma translate_wrong : exists v p, ~ same_pnu eq 3 (b3_translate Z.add v p) (z_payload (b3_from_translation 0%Z 1%Z v) p).
Proof.
  exists (zv [1; 0; 0]%Z), (zp [0; 0; 0]%Z [0; 0; 1]%Z). intros (_ & H & _). specialize (H 0 ltac:(lia)). vm_compute in H. discriminate H.
Qed.
Lemma b3_scale_wrong : exists v p, ~ same_pnu eq 3 (b3_scale Z.mul v p) (z_payload (b3_from_scale 0%Z 1%Z v) p).
Proof.
  exists (zv [2; 2; 2]%Z), (zp [0; 0; 0]%Z [0; 0; 1]%Z). intros (_ & H & _). specialize (H 2 ltac:(lia)). vm_compute in H. discriminate H.
Qed.
Lemma scale_tilts : exists v p p', (0 < v 0%nat /\ 0 < v 1%nat /\ 0 < v 2%nat)%Z /\
  upright 0%Z Z.add Z.mul Z.sub eq p p' /\ ~ upright 0%Z Z.add Z.mul Z.sub eq (b3_scale Z.mul v p) (b3_scale Z.mul v p').
Proof.
  exists (zv [2; 1; 1]%Z), (zp [0; 0; 0]%Z [1; 1; 0]%Z), (zp [1; -1; 0]%Z [1; 1; 0]%Z).
  split; [repeat split|]. split; [reflexivity|]. intros H. vm_compute in H. discriminate H.
Qed.
