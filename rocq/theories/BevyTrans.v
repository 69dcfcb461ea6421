(** The transformations of the Bevy meshes: src/extensions/bevy/math/vec2.rs, vec3.rs and
    src/extensions/bevy/vertex_payload_3d.rs, over a commutative ring. The functions of Bevy and glam that are called
    (Quat, Transform, Affine2) are modelled by their documented formulas. *)
From Coq Require Import List Arith.
From Verif Require Import Base Alg Transform.
Import ListNotations.
Set Implicit Arguments.
Unset Strict Implicit.

Section BevyTrans.
  Variables (R : Type) (zero one : R) (add mul sub : R -> R -> R).
  Infix "+" := add. Infix "*" := mul. Infix "-" := sub.
  Notation vec := (vec R).

  (** glam [Quat] *)
  Record quat := mkQuat { q_x : R; q_y : R; q_z : R; q_w : R }.
  Definition q_im (q : quat) : vec := fun i => match i with 0 => q_x q | 1 => q_y q | _ => q_z q end.
  (** glam [Quat::mul_vec3] *)
  Definition q_rot (q : quat) (v : vec) : vec :=
    let b := q_im q in let w := q_w q in let two := one + one in
    let bb := b 0 * b 0 + b 1 * b 1 + b 2 * b 2 in
    let vb := v 0 * b 0 + v 1 * b 1 + v 2 * b 2 in
    let cr i := match i with 0 => b 1 * v 2 - b 2 * v 1 | 1 => b 2 * v 0 - b 0 * v 2 | _ => b 0 * v 1 - b 1 * v 0 end in
    fun i => v i * (w * w - bb) + b i * (two * vb) + cr i * (two * w).
  (** glam [Quat::mul_quat] *)
  Definition q_mul (p q : quat) : quat := mkQuat
    (q_w p * q_x q + q_x p * q_w q + q_y p * q_z q - q_z p * q_y q)
    (q_w p * q_y q - q_x p * q_z q + q_y p * q_w q + q_z p * q_x q)
    (q_w p * q_z q + q_x p * q_y q - q_y p * q_x q + q_z p * q_w q)
    (q_w p * q_w q - q_x p * q_x q - q_y p * q_y q - q_z p * q_z q).
  Definition q_id : quat := mkQuat zero zero zero one.

  (** bevy [Transform] *)
  Record trs := mkT { t_tr : vec; t_rot : quat; t_sc : vec }.
  (** bevy [Transform::transform_point] *)
  Definition transform_point (t : trs) (v : vec) : vec := fun i => q_rot (t_rot t) (fun k => t_sc t k * v k) i + t_tr t i.
  (** bevy [Transform::mul_transform] *)
  Definition mul_transform (s o : trs) : trs :=
    mkT (transform_point s (t_tr o)) (q_mul (t_rot s) (t_rot o)) (fun k => t_sc s k * t_sc o k).

  (** ** vec3.rs *)
  (** vec3.rs:130-152 *)
  Definition b3_identity : trs := mkT (fun _ => zero) q_id (fun _ => one).
  Definition b3_from_rotation (q : quat) : trs := mkT (fun _ => zero) q (fun _ => one).
  Definition b3_from_translation (v : vec) : trs := mkT v q_id (fun _ => one).
  Definition b3_from_scale (v : vec) : trs := mkT (fun _ => zero) q_id v.
  (** vec3.rs:154-162: bevy's [with_scale] and [with_translation] replace the part *)
  Definition b3_with_scale (t : trs) (v : vec) : trs := mkT (t_tr t) (t_rot t) v.
  Definition b3_with_translation (t : trs) (v : vec) : trs := mkT v (t_rot t) (t_sc t).
  (** vec3.rs:164-174; nothing is NaN here *)
  Definition b3_apply (t : trs) (v : vec) : vec := transform_point t v.
  (** vec3.rs:176-179 *)
  Definition b3_apply_vec (t : trs) (v : vec) : vec := b3_apply t v.
  (** vec3.rs:181-184 *)
  Definition b3_chain (t o : trs) : trs := mul_transform t o.
  (** vertex_payload_3d.rs:46-51 [transform] *)
  Definition b3_payload (t : trs) (p : pnu R) : pnu R := mkP (b3_apply t (u_pos p)) (b3_apply_vec t (u_nor p)) (u_uv p).

  (** ** vec2.rs: glam [Affine2], a matrix and a translation *)
  Notation affine := (affine R).
  Definition affine2_mul (s o : affine) : affine :=
    mkA (mmul zero add mul 2 (a_mat s) (a_mat o)) (fun i => mvec zero add mul 2 (a_mat s) (a_tr o) i + a_tr s i).
  (** vec2.rs:131-139 *)
  Definition b2_from_translation (v : vec) : affine := mkA (ident zero one) v.
  Definition b2_from_scale (v : vec) : affine := mkA (diag zero v) (fun _ => zero).
  (** vec2.rs:141-149 *)
  Definition b2_with_scale (t : affine) (v : vec) : affine := affine2_mul (b2_from_scale v) t.
  Definition b2_with_translation (t : affine) (v : vec) : affine := affine2_mul (b2_from_translation v) t.
  (** vec2.rs:151-159 *)
  Definition b2_apply (t : affine) (v : vec) : vec := fun i => mvec zero add mul 2 (a_mat t) v i + a_tr t i.
  Definition b2_apply_vec (t : affine) (v : vec) : vec := mvec zero add mul 2 (a_mat t) v.
  (** vec2.rs:161-164 *)
  Definition b2_chain (t o : affine) : affine := affine2_mul t o.
End BevyTrans.
