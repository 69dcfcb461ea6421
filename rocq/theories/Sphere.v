(** Model of the geodesic spheres with their positions, over the real numbers. *)
From Coq Require Import List Arith Reals.
From Verif Require Import Base DVec Mesh Solid Subdivision Interpolate.
Import ListNotations.
Set Implicit Arguments.

(** Exact arithmetic instead of floats. *)
Definition vec3 : Type := (R * R * R)%type.
Section Vec.
  Local Open Scope R_scope.
  (** src/extensions/nalgebra/math/vec_n.rs *)
  Definition vadd (a b : vec3) : vec3 := let '(x, y, z) := a in let '(u, v, w) := b in (x + u, y + v, z + w).
  Definition vsub (a b : vec3) : vec3 := let '(x, y, z) := a in let '(u, v, w) := b in (x - u, y - v, z - w).
  Definition vmul (a : vec3) (s : R) : vec3 := let '(x, y, z) := a in (x * s, y * s, z * s).
  Definition vdiv (a : vec3) (s : R) : vec3 := let '(x, y, z) := a in (x / s, y / s, z / s).
  Definition vdot (a b : vec3) : R := let '(x, y, z) := a in let '(u, v, w) := b in x * u + y * v + z * w.
  Definition vlen (a : vec3) : R := sqrt (vdot a a).
  Definition zero3 : vec3 := (0, 0, 0).
  Definition lt_b (a b : R) : bool := if Rlt_dec a b then true else false.
  (** src/extensions/nalgebra/math/vec_n.rs:91-99 *)
  Definition normalize (a : vec3) : vec3 := if Req_EM_T (vlen a) 0 then a else vdiv a (vlen a).
  (** src/math/scalar.rs:163-165, src/extensions/nalgebra/math/vec_n.rs:135-139 *)
  Definition about (a b eps : R) : bool := lt_b (Rabs (a - b)) eps.
  Definition vabout (a b : vec3) (eps : R) : bool :=
    let '(x, y, z) := a in let '(u, v, w) := b in about x u eps && about y v eps && about z w eps.
  (** [clamp(-1, 1)] *)
  Definition clamp1 (x : R) : R := if Rlt_dec x (-1) then -1 else if Rlt_dec 1 x then 1 else x.

  (** src/math/vector3d.rs:130-150 with [t = HALF]; [eps] is [S::EPS] *)
  Definition slerp_value (eps : R) (a b : vec3) : vec3 :=
    let dot := clamp1 (vdot a b) in
    let theta := acos dot in
    if Rlt_dec (Rabs theta) (sqrt eps) then a else
    let st1 := sin ((1 - / 2) * theta) / sin theta in
    let st2 := sin (/ 2 * theta) / sin theta in
    vadd (vmul a st1) (vmul b st2).
  (** src/math/vector3d.rs:120-151 *)
  Definition slerp (c : cfg) (eps : R) (a b : vec3) : res vec3 :=
    dassert c (Ok (lt_b (vlen a - 1) (sqrt eps))) (
    dassert c (Ok (lt_b (vlen b - 1) (sqrt eps))) (Ok (slerp_value eps a b))).

  (** src/primitives/sphere.rs:12-14; [PHI] is exact *)
  Definition icosahedron_r2a (r : R) : R := 4 * r / sqrt (10 + 2 * sqrt 5).
  Definition golden : R := (1 + sqrt 5) / 2.
End Vec.

Section Sphere.
  Context {EP FP : Type}.
  (** The vertex payload is the position: [pos] and [from_pos] are the identity. *)
  Notation mesh := (mesh vec3 EP FP).
  Implicit Types (c : cfg) (m : mesh).
  Variable (dE : EP) (dF : FP).
  Local Open Scope R_scope.

  (** src/primitives/sphere.rs:128-160 *)
  Definition regular_icosahedron c (l : R) : res mesh :=
    let long := l * golden * / 2 in
    let short := l * / 2 in
    icosahedron dE dF c
      [(0, long, - short); (long, short, 0); (short, 0, long); (- short, 0, long); (- long, short, 0)]
      [(short, 0, - long); (long, - short, 0); (0, - long, short); (- long, - short, 0); (- short, 0, - long)]
      (0, long, short) (0, - long, - short).
  (** src/primitives/prismatoid.rs:212-226 *)
  Definition regular_tetrahedron c (l : R) : res mesh :=
    let e := / 2 * l in
    let sq := e / sqrt 2 in
    pyramid dE dF c [(- e, 0, - sq); (0, - e, sq); (e, 0, - sq)] (0, e, sq).
  (** src/primitives/prismatoid.rs:21-36 [circle_iter] with [shift = 0] and [y = 0] *)
  Definition circle_point (r : R) (n : nat) (i : nat) : vec3 :=
    let v := PI * INR (2 * i) / INR n in (r * cos v, 0, - r * sin v).
  (** src/primitives/prismatoid.rs:228-241 *)
  Definition octahedron_mesh c (radius : R) : res mesh :=
    regular_octahedron dE dF c (circle_point radius 4) (0, radius, 0) (0, - radius, 0).

  (** src/mesh/mesh/position.rs:9-11; the compensated sum is the sum (C43) *)
  Definition centroid m : vec3 :=
    let ps := map (fun x => v_pay (snd x)) (d_iter (verts m)) in
    vdiv (fold_left vadd ps zero3) (INR (length ps)).

  (** src/primitives/sphere.rs:186-222, the common part of the three functions *)
  Definition geodesic c (eps radius : R) (start : res mesh) (n : nat) : res mesh :=
    let* m := start in
    dassert c (Ok (vabout (centroid m) zero3 eps)) (
      let* d := sd_new n 0 in
      subdivision_frequency dE
        (slerp_call (fun x => x) (fun x => x) vadd vsub vmul normalize (slerp c eps) zero3 radius) c m d).
  Definition geodesic_icosahedron c (eps radius : R) (n : nat) : res mesh :=
    geodesic c eps radius (regular_icosahedron c (icosahedron_r2a radius)) n.
  Definition geodesic_tetrahedron c (eps radius : R) (n : nat) : res mesh :=
    geodesic c eps radius (regular_tetrahedron c radius) n.
  Definition geodesic_octahedron c (eps radius : R) (n : nat) : res mesh :=
    geodesic c eps radius (octahedron_mesh c radius) n.
End Sphere.
