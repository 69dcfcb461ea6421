(** Model of the vertex interpolators. *)
From Coq Require Import List Arith.
From Verif Require Import Base DVec Mesh.
Import ListNotations.
Set Implicit Arguments.

Section Interpolate.
  Context {VP EP FP V K : Type}.
  Notation mesh := (mesh VP EP FP).
  (** [pos] and [from_pos] of the vertex payload, [T::S::from_usize], and the vector operations [+], [-],
      [* scalar], [/ scalar] and [normalize] *)
  Variables (pos : VP -> V) (from_pos : V -> VP) (of_nat : nat -> K).
  Variables (vadd vsub : V -> V -> V) (vmul vdiv : V -> K -> V) (normalize : V -> V).

  (** [mesh.vertex(v).pos()] *)
  Definition position (m : mesh) (v : nat) : res V := let* x := m_vertex m v in Ok (pos (v_pay x)).

  (** src/mesh/vertex/interpolator.rs:24-32. The argument is an array of length three. *)
  Definition linear_call (m : mesh) (ws : list (nat * nat)) : res VP :=
    match ws with
    | [(i, vi); (j, vj); (k, vk)] =>
        let* pi := position m vi in
        let* pj := position m vj in
        let* pk := position m vk in
        Ok (from_pos (vdiv (vadd (vadd (vmul pi (of_nat i)) (vmul pj (of_nat j))) (vmul pk (of_nat k))) (of_nat (i + j + k))))
    | _ => Panic
    end.

  (** [self.slerp(other, HALF)], with the debug assertions *)
  Variable slerp : V -> V -> res V.
  (** src/mesh/vertex/interpolator.rs:57-75; [center] and [radius] are the fields of
      [SlerpVertexInterpolator] *)
  Definition slerp_call (center : V) (radius : K) (m : mesh) (ws : list (nat * nat)) : res VP :=
    match ws with
    | [(i, vi); (j, vj); (k, vk)] =>
        let* pi := position m vi in let pi := normalize (vsub pi center) in
        let* pj := position m vj in let pj := normalize (vsub pj center) in
        let* pk := position m vk in let pk := normalize (vsub pk center) in
        let* p := if i =? 0 then slerp pj pk else if j =? 0 then slerp pk pi else if k =? 0 then slerp pi pj else Panic in
        Ok (from_pos (vadd center (vmul (normalize p) radius)))
    | _ => Panic
    end.
End Interpolate.
