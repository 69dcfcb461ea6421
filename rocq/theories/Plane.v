(** Faces rotated into the plane: src/mesh/face/face3d.rs, over the real numbers. *)
From Coq Require Import List Arith Bool Reals.
From Verif Require Import Base DVec Mesh MeshMore Alg Transform Normals.
Import ListNotations.
Set Implicit Arguments.
Unset Strict Implicit.

(** src/extensions/nalgebra/math/vec_n.rs: [new], [cross], [dot] *)
Definition r_new (x y z : R) : rvec := fun i => match i with 0 => x | 1 => y | _ => z end.
Definition r_cross (a b : rvec) : rvec :=
  r_new (a 1%nat * b 2%nat - a 2%nat * b 1%nat) (a 2%nat * b 0%nat - a 0%nat * b 2%nat) (a 0%nat * b 1%nat - a 1%nat * b 0%nat).
Definition r_dot (a b : rvec) : R := (a 0%nat * b 0%nat + a 1%nat * b 1%nat + a 2%nat * b 2%nat)%R.

(** nalgebra 0.34.1, geometry/rotation_specialization.rs: [Rotation3::from_axis_angle] and
    [Rotation3::rotation_between]; [eps] is [default_epsilon] of the scalar *)
Definition from_axis_angle (u : rvec) (angle : R) : matrix R :=
  if Req_EM_T angle 0 then ident 0%R 1%R
  else
    let s := sin angle in let c := cos angle in let k := (1 - c)%R in
    fun i => match i with
    | 0 => r_new (u 0%nat * u 0%nat + (1 - u 0%nat * u 0%nat) * c) (u 0%nat * u 1%nat * k - u 2%nat * s) (u 0%nat * u 2%nat * k + u 1%nat * s)
    | 1 => r_new (u 0%nat * u 1%nat * k + u 2%nat * s) (u 1%nat * u 1%nat + (1 - u 1%nat * u 1%nat) * c) (u 1%nat * u 2%nat * k - u 0%nat * s)
    | _ => r_new (u 0%nat * u 2%nat * k - u 1%nat * s) (u 1%nat * u 2%nat * k + u 0%nat * s) (u 2%nat * u 2%nat + (1 - u 2%nat * u 2%nat) * c)
    end.
Definition rotation_between (eps : R) (a b : rvec) : option (matrix R) :=
  if Req_EM_T (r_len a) 0 then Some (ident 0%R 1%R) else
  if Req_EM_T (r_len b) 0 then Some (ident 0%R 1%R) else
  let na := fun i => (a i / r_len a)%R in let nb := fun i => (b i / r_len b)%R in
  let c := r_cross na nb in
  if Rlt_dec eps (r_len c) then Some (from_axis_angle (fun i => c i / r_len c)%R (acos (r_dot na nb)))
  else if Rlt_dec (r_dot na nb) 0 then None else Some (ident 0%R 1%R).
(** src/extensions/nalgebra/math/rotate.rs:87-113, transform_n.rs:77-79 [from_rotation_arc], 62-64 [apply];
    nothing where [expect] panics *)
Definition arc_nalgebra (eps : R) (from to : rvec) : option (rvec -> rvec) :=
  option_map (fun r => a_apply 0%R Rplus Rmult 3 (a_from_rotation 0%R r)) (rotation_between eps from to).

(** glam 0.30.8, [Quat]: [from_rotation_arc], [from_axis_angle], [normalize], [mul_vec3], and
    [Vec3::any_orthonormal_vector]; quaternions as (vector, scalar) *)
Definition q_apply (q : rvec * R) (v : rvec) : rvec :=
  let (b, w) := q in
  fun i => (v i * (w * w - r_dot b b) + b i * (r_dot v b * 2) + r_cross b v i * (w * 2))%R.
Definition q_normalize (q : rvec * R) : rvec * R :=
  let (b, w) := q in let l := sqrt (r_dot b b + w * w) in ((fun i => b i / l)%R, (w / l)%R).
Definition q_axis_angle (u : rvec) (angle : R) : rvec * R := ((fun i => u i * sin (angle / 2))%R, cos (angle / 2)).
Definition any_orthonormal (v : rvec) : rvec :=
  let sign := (if Rlt_dec (v 2%nat) 0 then -1 else 1)%R in
  let a := (-1 / (sign + v 2%nat))%R in
  let b := (v 0%nat * v 1%nat * a)%R in
  r_new b (sign + v 1%nat * v 1%nat * a) (- v 1%nat).
Definition q_arc (eps : R) (from to : rvec) : rvec * R :=
  let d := r_dot from to in
  if Rlt_dec (1 - 2 * eps) d then (fun _ => 0%R, 1%R)
  else if Rlt_dec d (- (1 - 2 * eps)) then q_axis_angle (any_orthonormal from) PI
  else q_normalize (r_cross from to, (1 + d)%R).
(** src/extensions/bevy/math/vec3.rs:139-142 [from_rotation_arc], 165-175 [apply] without the NaN checks *)
Definition arc_bevy (eps : R) (from to : rvec) : option (rvec -> rvec) := Some (q_apply (q_arc eps from to)).

Section Plane.
  Variable arc : rvec -> rvec -> option (rvec -> rvec).
  (** the debug assertion of [Face3d::normal], src/mesh/face/face3d.rs:91-95, per face *)
  Variable planar : nat -> bool.
  Context {FP : Type}.
  Notation mesh := (mesh (pnu R) (curve R) FP).
  Implicit Types (m : mesh).
  (** face3d.rs:125-138 [vertices_2d]; [vec2] keeps the first two coordinates *)
  Definition vertices_2d (c : cfg) m (f : nat) : res (list ((R * R) * nat)) :=
    let z_axis := r_new 0 0 1 in
    let* n := unit_normal planar c m f in
    let* rotation := unwrap (arc n (r_normalize z_axis)) in
    let* vs := face_vertices m f in
    mapM (fun v => let* x := m_vertex m v in let p := rotation (u_pos (v_pay x)) in Ok ((p 0, p 1), v)) vs.
End Plane.
